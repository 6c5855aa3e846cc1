(* C13: property merge of Manhattan sets.
   [merges ins r r']: inserting the inputs (set, property) in turn into a new
   property_merge_90 and calling merge(r) may leave the result r' (the order in
   which std::sort leaves data at one position is free).
   [legal_set s]: the polygon set s arises in a history of accepted calls. *)
From Coq Require Import Permutation.
From Verif Require Import Base Scan90Spec BoolOpModel VertexLemmas ScanMap Set90Spec Set90Model Set90Lemmas Set90Proofs Set90History Set90Cor
  TouchModel PropMergeSpec PropMergeModel PropMergeMap PropMergeStep PropMergeVertex PropMergeSweep.

(* ---------- the data of the inputs ---------- *)
Lemma populate_cnt V p o q x y : psum (quad x y) (populate_pmd [] V p o) q = if p =? q then wind o V x y else 0.
Proof.
  unfold populate_pmd. cbn [app]. induction V as [|v V IH]; cbn [map psum].
  - destruct o, (p =? q); reflexivity.
  - rewrite IH. destruct o; cbn [pv_p pv_c wind cnt]; unfold quad; cbn [pv_x pv_y]; destruct (p =? q); rewrite ?andb_true_r, ?andb_false_r; try lia.
    rewrite (andb_comm (vy v <=? x)). reflexivity.
Qed.
Lemma populate_col V p o q x : closed V -> psum (oncol x) (populate_pmd [] V p o) q = 0.
Proof.
  intros [H1 H2]. assert (E : psum (oncol x) (populate_pmd [] V p o) q = if p =? q then match o with Horizontal => row_total V x | Vertical => col_total V x end else 0).
  { clear H1 H2. unfold populate_pmd. cbn [app]. induction V as [|v V IH]; cbn [map psum]; [destruct o, (p =? q); reflexivity|].
    rewrite IH. destruct o; cbn [pv_p pv_c row_total col_total]; unfold oncol; cbn [pv_x]; destruct (p =? q); rewrite ?andb_true_r, ?andb_false_r; lia. }
  rewrite E. destruct (p =? q); [|reflexivity]. destruct o; [apply H2|apply H1].
Qed.
Lemma populate_app pmd V p o : populate_pmd pmd V p o = pmd ++ populate_pmd [] V p o.
Proof. reflexivity. Qed.

Lemma pm_data_cnt ins : forall pmd q x y, psum (quad x y) (pm_data pmd ins) q = psum (quad x y) pmd q + prop_count ins q x y.
Proof.
  induction ins as [|[s p] ins IH]; intros pmd q x y; cbn [pm_data prop_count]; [lia|].
  rewrite IH, populate_app, psum_app, populate_cnt. unfold ps_count. lia.
Qed.
Lemma legal_ok s : legal_set s -> ps_ok s.
Proof. intros [st [i [H ->]]]. apply reachable_ok. exact H. Qed.
Lemma pm_data_col ins : forall pmd q x, Forall (fun i => legal_set (fst i)) ins ->
  psum (oncol x) (pm_data pmd ins) q = psum (oncol x) pmd q.
Proof.
  induction ins as [|[s p] ins IH]; intros pmd q x H; cbn [pm_data]; [reflexivity|].
  inversion H as [|i l H1 H2]; subst. rewrite IH by exact H2. rewrite populate_app, psum_app, populate_col; [lia|].
  apply (ok_closed _ (legal_ok _ H1)).
Qed.
Definition int_pos (v : pvertex) : Prop := is_int (pv_x v) /\ is_int (pv_y v).
Lemma pm_data_int ins : forall pmd, Forall int_pos pmd -> Forall (fun i => legal_set (fst i)) ins -> Forall int_pos (pm_data pmd ins).
Proof.
  induction ins as [|[s p] ins IH]; intros pmd H0 H; cbn [pm_data]; [exact H0|].
  inversion H as [|i l H1 H2]; subst. apply IH; [|exact H2]. rewrite populate_app. apply Forall_app. split; [exact H0|].
  unfold populate_pmd. cbn [app]. apply Forall_map. eapply Forall_impl; [|apply (ok_int _ (legal_ok _ H1))].
  cbn beta. intros v [V1 V2]. destruct (ps_orient s); split; assumption.
Qed.

(* what every run delivers *)
Lemma merge_run ins r' : Forall (fun i => legal_set (fst i)) ins -> merges ins [] r' ->
  exists D, (forall p x y, pcnt D p x y = prop_count ins p x y) /\ res_ok is_int D r' /\
    forall S x y, S <> [] -> rescount r' S x y = eqS (cellset D x y) S.
Proof.
  intros Hl [D [HP [Hs E]]]. exists D. split.
  - intros p x y. unfold pcnt. rewrite (psum_perm _ _ _ _ HP), pm_data_cnt. reflexivity.
  - destruct (merge_sorted_spec is_int D) as [r1 [E1 [H1 H2]]].
    + apply Permutation_sym in HP. eapply Permutation_Forall; [exact HP|]. apply pm_data_int; [constructor|exact Hl].
    + intros p x. rewrite (psum_perm _ _ _ _ HP), pm_data_col by exact Hl. reflexivity.
    + exact Hs.
    + assert (r1 = r') by congruence. subst r1. split; assumption.
Qed.
Lemma pv_insert_perm v l : Permutation (pv_insert v l) (v :: l).
Proof. induction l as [|w l IH]; cbn [pv_insert]; [reflexivity|]. destruct (pv_leb v w); [reflexivity|]. rewrite IH. apply perm_swap. Qed.
Lemma pv_sort_perm l : Permutation (pv_sort l) l.
Proof. induction l as [|v l IH]; cbn [pv_sort]; [reflexivity|]. rewrite pv_insert_perm, IH. reflexivity. Qed.
Lemma pv_insert_sorted v l : pv_sorted l -> pv_sorted (pv_insert v l).
Proof.
  unfold pv_sorted. induction l as [|w l IH]; intros H; cbn [pv_insert]; [constructor; constructor|].
  inversion H as [|w' l' H1 H2]; subst. unfold pv_leb.
  destruct ((pv_x v <? pv_x w) || (pv_x v =? pv_x w) && (pv_y v <=? pv_y w)) eqn:E.
  - constructor; [exact H|]. constructor; [unfold pv_le; lia|]. eapply Forall_impl; [|exact H2]. unfold pv_le. intros u Hu. lia.
  - constructor; [apply IH; exact H1|]. apply (Permutation_Forall (Permutation_sym (pv_insert_perm v l))).
    constructor; [unfold pv_le; lia|exact H2].
Qed.
Lemma pv_sort_sorted l : pv_sorted (pv_sort l).
Proof. induction l as [|v l IH]; cbn [pv_sort]; [constructor|apply pv_insert_sorted; exact IH]. Qed.

Lemma carries_cellset ins D S x y : (forall p x y, pcnt D p x y = prop_count ins p x y) -> prop_set S ->
  (carries ins S x y <-> cellset D x y = S).
Proof.
  intros HD HS. unfold carries. split.
  - intros H. apply prop_set_ext; [apply cellset_set|exact HS|]. intros p. rewrite cellset_in, HD. symmetry. apply H.
  - intros <- p. rewrite cellset_in, HD. reflexivity.
Qed.
Lemma res_find_in S r s : res_find S r = Some s -> In (S, s) r.
Proof.
  induction r as [|[T t] r IH]; cbn [res_find]; [discriminate|]. destruct (set_eqb T S) eqn:E.
  - apply set_eqb_spec in E. subst T. intros H. left. congruence.
  - intros H. right. apply IH. exact H.
Qed.
Lemma res_find_nodup S r s : NoDup (map fst r) -> In (S, s) r -> res_find S r = Some s.
Proof.
  induction r as [|[T t] r IH]; intros N H; [destruct H|]. cbn [res_find map fst] in *. inversion N as [|a l N1 N2]; subst. destruct H as [H|H].
  - assert (T = S /\ t = s) as [-> ->] by (split; congruence). rewrite set_eqb_refl. reflexivity.
  - destruct (set_eqb T S) eqn:E; [|apply IH; assumption]. apply set_eqb_spec in E. subst T.
    contradiction N1. apply in_map_iff. exists (S, s). split; [reflexivity|exact H].
Qed.

(* ---------- C13 ---------- *)
(* merge never fails, and every run files under each non-empty set of properties
   exactly the cells that carry these properties and no other *)
Theorem C13_property_merge : forall ins : list (pset * Z),
  Forall (fun i => legal_set (fst i)) ins ->
  (exists r', merges ins [] r') /\
  forall r', merges ins [] r' ->
    forall S, prop_set S -> S <> [] -> forall x y, res_covers r' S x y <-> carries ins S x y.
Proof.
  intros ins Hl. split.
  - destruct (merge_sorted_spec is_int (pv_sort (pm_data [] ins))) as [r1 [E1 _]].
    + eapply Permutation_Forall; [apply Permutation_sym, pv_sort_perm|]. apply pm_data_int; [constructor|exact Hl].
    + intros p x. rewrite (psum_perm _ _ _ _ (pv_sort_perm _)), pm_data_col by exact Hl. reflexivity.
    + apply pv_sort_sorted.
    + exists r1, (pv_sort (pm_data [] ins)). split; [apply pv_sort_perm|]. split; [apply pv_sort_sorted|exact E1].
  - intros r' Hm S HS HN x y. destruct (merge_run ins r' Hl Hm) as [D [HD [[HR _] HC]]].
    rewrite (carries_cellset ins D S x y HD HS). specialize (HC S x y HN). unfold rescount in HC. unfold res_covers.
    unfold eqS, b2z in HC. destruct (res_find S r') as [s|] eqn:E.
    + apply res_find_in in E. rewrite Forall_forall in HR. apply HR in E. destruct E as [_ [_ [Eo _]]]. cbn [snd] in Eo.
      unfold ps_covers, ps_count, wind. rewrite Eo, HC. destruct (set_eqb (cellset D x y) S) eqn:E.
      * apply set_eqb_spec in E. split; [intros _; exact E|lia].
      * split; [lia|]. intros E'. apply set_eqb_spec in E'. congruence.
    + split; [contradiction|]. intros E'. apply set_eqb_spec in E'. rewrite E' in HC. discriminate HC.
Qed.
Print Assumptions C13_property_merge.

(* the keys are the sets of properties that some cell carries, each once *)
Theorem C13_keys : forall ins r', Forall (fun i => legal_set (fst i)) ins -> merges ins [] r' ->
  NoDup (map fst r') /\
  forall S, In S (map fst r') <-> (S <> [] /\ prop_set S /\ exists x y, carries ins S x y).
Proof.
  intros ins r' Hl Hm. destruct (merge_run ins r' Hl Hm) as [D [HD [[HR HN] HC]]]. split; [exact HN|].
  intros S. split.
  - intros H. apply in_map_iff in H. destruct H as [[S' s] [E H]]. cbn [fst] in E. subst S'.
    rewrite Forall_forall in HR. apply HR in H. destruct H as [H1 [[x [y H2]] _]]. cbn [fst] in H1, H2.
    split; [exact H1|]. assert (HS : prop_set S) by (rewrite <- H2; apply cellset_set). split; [exact HS|].
    exists x, y. apply (carries_cellset ins D S x y HD HS). exact H2.
  - intros [H1 [H2 [x [y H3]]]]. apply (carries_cellset ins D S x y HD H2) in H3. specialize (HC S x y H1).
    rewrite H3 in HC. unfold eqS in HC. rewrite set_eqb_refl in HC. unfold rescount in HC.
    destruct (res_find S r') as [s|] eqn:E; [|discriminate HC]. apply res_find_in in E. apply in_map_iff. exists (S, s). split; [reflexivity|exact E].
Qed.
Print Assumptions C13_keys.

(* the stored sets are well formed: normalising one succeeds and keeps its region *)
Theorem C13_stored_sets_clean : forall ins r' S s, Forall (fun i => legal_set (fst i)) ins -> merges ins [] r' ->
  In (S, s) r' -> exists s', ps_clean s = Some s' /\ canonical (ps_data s') /\
    forall x y, ps_covers s' x y <-> carries ins S x y.
Proof.
  intros ins r' S s Hl Hm Hi. destruct (merge_run ins r' Hl Hm) as [D [HD [[HR HN] HC]]].
  pose proof (res_find_nodup S r' s HN Hi) as Ef.
  rewrite Forall_forall in HR. pose proof (HR _ Hi) as [N1 [[x0 [y0 W]] [Eo [Ed [Eu Ei]]]]]. cbn [fst snd] in *.
  assert (HS : prop_set S) by (rewrite <- W; apply cellset_set).
  assert (Hcnt : forall x y, cnt (ps_data s) x y = eqS (cellset D x y) S).
  { intros x y. rewrite <- (HC S x y N1). unfold rescount. rewrite Ef. reflexivity. }
  assert (Hcl : closed (ps_data s)).
  { apply closed_bounded. assert (Hb : forall l : list (pset * Z), Forall (fun i => legal_set (fst i)) l ->
        exists M, forall p x y, x < - M \/ M < x \/ y < - M \/ M < y -> prop_count l p x y = 0).
    { induction l as [|[t q] l IH]; intros Hf; [exists 0; intros; reflexivity|]. inversion Hf as [|i l' F1 F2]; subst.
      destruct (IH F2) as [M1 HM1]. pose proof (ok_closed _ (legal_ok _ F1)) as Hc. apply closed_bounded in Hc. destruct Hc as [M2 HM2].
      exists (Z.max M1 M2). intros p x y Hxy. cbn [prop_count]. rewrite HM1 by lia. unfold ps_count, wind.
      destruct (q =? p); [|reflexivity]. destruct (ps_orient t); rewrite HM2 by lia; reflexivity. }
    destruct (Hb ins Hl) as [M HM]. exists M. intros x y Hxy. rewrite Hcnt.
    assert (E : cellset D x y = []).
    { apply prop_set_ext; [apply cellset_set|constructor|]. intros p. rewrite cellset_in, HD, HM by tauto. cbn [In]. lia. }
    rewrite E. apply eqS_nil. exact N1. }
  assert (Hok : ps_ok s).
  { constructor; [exact Hcl|exact Ei| |]; rewrite ?Ed, ?Eu; discriminate. }
  destruct (ps_clean_spec s Hok) as [s' [E [O' [Eo' [_ [_ [Ca Hw]]]]]]]. exists s'. split; [exact E|]. split; [exact Ca|].
  intros x y. unfold ps_covers, ps_count. rewrite Eo', Eo. cbn [wind]. rewrite Hw, Hcnt, (carries_cellset ins D S x y HD HS).
  unfold eqS. destruct (set_eqb (cellset D x y) S) eqn:E'; cbn [b2z].
  - apply set_eqb_spec in E'. split; [intros _; exact E'|]. intros _. reflexivity.
  - split; [discriminate|]. intros E2. apply set_eqb_spec in E2. congruence.
Qed.
Print Assumptions C13_stored_sets_clean.

(* when no input has a negative winding count, a cell carries p iff some input
   with the property p covers it *)
Definition no_holes (s : pset) : Prop := forall x y, 0 <= ps_count s x y.
Lemma prop_count_union ins p x y : Forall (fun i => no_holes (fst i)) ins ->
  0 <= prop_count ins p x y /\ (0 < prop_count ins p x y <-> exists s, In (s, p) ins /\ ps_covers s x y).
Proof.
  induction ins as [|[s q] ins IH]; intros H; cbn [prop_count In].
  - split; [lia|]. split; [lia|]. intros [s [[] _]].
  - inversion H as [|i l H1 H2]; subst. cbn [fst] in H1. destruct (IH H2) as [I1 I2]. specialize (H1 x y). unfold ps_covers in *. split; [destruct (q =? p); lia|].
    destruct (Z.eqb_spec q p) as [->|Hq].
    + split.
      * intros Hp. destruct (Z.ltb_spec 0 (ps_count s x y)) as [Hc|Hc].
        -- exists s. split; [left; reflexivity|exact Hc].
        -- destruct (proj1 I2) as [s' [S1 S2]]; [lia|]. exists s'. split; [right; exact S1|exact S2].
      * intros [s' [[E|Hi] Hc]]; [assert (s = s') by congruence; subst s'; lia|].
        assert (0 < prop_count ins p x y) by (apply I2; exists s'; split; assumption). lia.
    + rewrite Z.add_0_l, I2. split; intros [s' [Hi Hc]]; exists s'; split; try assumption; [right; exact Hi|].
      destruct Hi as [E|Hi]; [|exact Hi]. congruence.
Qed.
Theorem C13_union : forall ins r', Forall (fun i => legal_set (fst i)) ins -> Forall (fun i => no_holes (fst i)) ins ->
  merges ins [] r' -> forall S, prop_set S -> S <> [] -> forall x y,
  (res_covers r' S x y <-> forall p, In p S <-> exists s, In (s, p) ins /\ ps_covers s x y).
Proof.
  intros ins r' Hl Hn Hm S HS HN x y. rewrite (proj2 (C13_property_merge ins Hl) r' Hm S HS HN x y). unfold carries.
  split; intros H p; rewrite (H p); [|symmetry]; apply (prop_count_union ins p x y Hn).
Qed.
Print Assumptions C13_union.

(* ---------- a concrete case ---------- *)
Definition ex_rect (a b c d : Z) : pset := ps_insert_rect (ps_new Horizontal) (mk_rect a b c d) false.
Definition ex_ins : list (pset * Z) :=
  [(ex_rect 0 10 0 10, 1); (ex_rect 5 15 5 15, 2); (ex_rect 3 7 (-2) 20, 3); (ex_rect 20 21 0 1, 1)].
Lemma ex_rect_legal a b c d : a <= b -> c <= d -> is_int a -> is_int b -> is_int c -> is_int d -> legal_set (ex_rect a b c d).
Proof.
  intros H1 H2 H3 H4 H5 H6. exists (upd (upd start 0%nat (ps_new Horizontal)) 0%nat (ex_rect a b c d)), 0%nat. split; [|reflexivity].
  exists [ONew 0 Horizontal; OInsertRect 0 (mk_rect a b c d) false], []. split; [|reflexivity].
  constructor; [exact I|]. constructor; [|constructor]. cbn [op_ok]. unfold rect_ok. cbn [xl xh yl yh]. tauto.
Qed.
Example C13_example_legal : Forall (fun i => legal_set (fst i)) ex_ins.
Proof. repeat (constructor; [cbn [fst]; apply ex_rect_legal; unfold is_int, INT_MIN, INT_MAX; lia|]). constructor. Qed.
Example C13_example_run : exists r', merges ex_ins [] r' /\
  map fst r' = [[1]; [3]; [1; 3]; [1; 2; 3]; [2; 3]; [1; 2]; [2]].
Proof.
  eexists. split.
  - exists (pv_sort (pm_data [] ex_ins)). split; [apply pv_sort_perm|]. split; [apply pv_sort_sorted|]. vm_compute. reflexivity.
  - vm_compute. reflexivity.
Qed.
Example C13_example_cell : carries ex_ins [1; 2; 3] 6 6.
Proof.
  intros p. cbn [In].
  assert (E : prop_count ex_ins p 6 6 = (if 1 =? p then 1 else 0) + ((if 2 =? p then 1 else 0) + ((if 3 =? p then 1 else 0) + (if 1 =? p then 0 else 0)))).
  { cbn [prop_count ex_ins]. rewrite Z.add_0_r. repeat f_equal; vm_compute; reflexivity. }
  rewrite E. destruct (Z.eqb_spec 1 p), (Z.eqb_spec 2 p), (Z.eqb_spec 3 p); lia.
Qed.

(* merge into a map that already holds a set for the key: the edges are inserted
   with the orientation of that set. A default constructed polygon_90_set_data,
   as result[key] leaves it, is HORIZONTAL, and the region comes out transposed. *)
Theorem C13_reused_result_refuted : exists ins r r' x y,
  Forall (fun i => legal_set (fst i)) ins /\ merges ins r r' /\
  (forall S x y, ~ res_covers r S x y) /\ carries ins [1] x y /\ ~ res_covers r' [1] x y.
Proof.
  exists [(ex_rect 0 2 0 1, 1)], [([1], ps_new Horizontal)].
  eexists. exists 1, 0. split; [|split; [|split; [|split]]].
  - constructor; [|constructor]. cbn [fst]. apply ex_rect_legal; unfold is_int, INT_MIN, INT_MAX; lia.
  - exists (pv_sort (pm_data [] [(ex_rect 0 2 0 1, 1)])). split; [apply pv_sort_perm|]. split; [apply pv_sort_sorted|]. vm_compute. reflexivity.
  - intros S x y. unfold res_covers. cbn [res_find]. destruct (set_eqb [1] S); [|tauto].
    unfold ps_covers, ps_count. cbn [ps_new ps_orient ps_data wind cnt]. lia.
  - intros p. cbn [prop_count]. assert (E : ps_count (ex_rect 0 2 0 1) 1 0 = 1) by (vm_compute; reflexivity). rewrite E. cbn [In].
    destruct (Z.eqb_spec 1 p); lia.
  - unfold res_covers. cbn [res_find set_eqb]. vm_compute. discriminate.
Qed.
Print Assumptions C13_reused_result_refuted.
