(* Vertex-level facts used by the proofs about polygon sets: sorting, canonical
   data, coordinate changes. *)
From Verif Require Import Base Scan90Spec VertexLemmas IsoSpec IsoModel IsoProofs Set90Spec Set90Model.
From Coq Require Import Sorting.Permutation.

(* ---------- sorting ---------- *)
Lemma vinsert_perm v l : Permutation (vinsert v l) (v :: l).
Proof.
  induction l as [|w l IH]; cbn [vinsert]; [apply Permutation_refl|].
  destruct (vleb v w); [apply Permutation_refl|].
  eapply Permutation_trans; [apply perm_skip; exact IH|]. apply perm_swap.
Qed.
Lemma vsort_perm l : Permutation (vsort l) l.
Proof.
  induction l as [|v l IH]; cbn [vsort]; [constructor|].
  eapply Permutation_trans; [apply vinsert_perm|]. apply perm_skip. exact IH.
Qed.
Lemma vleb_pos_le v w : vleb v w = true -> pos_le v w.
Proof. unfold vleb, pos_le. lia. Qed.
Lemma vleb_false_pos_le v w : vleb v w = false -> pos_le w v.
Proof. unfold vleb, pos_le. lia. Qed.
Lemma pos_le_trans u v w : pos_le u v -> pos_le v w -> pos_le u w.
Proof. unfold pos_le. lia. Qed.
Lemma vinsert_sorted v l : StronglySorted pos_le l -> StronglySorted pos_le (vinsert v l).
Proof.
  induction l as [|w l IH]; cbn [vinsert]; intros H.
  - constructor; constructor.
  - inversion H as [|? ? H1 H2]; subst. destruct (vleb v w) eqn:E.
    + constructor; [exact H|]. constructor; [apply vleb_pos_le; exact E|].
      eapply Forall_impl; [|exact H2]. intros u Hu. cbn beta in *.
      eapply pos_le_trans; [apply vleb_pos_le; exact E|exact Hu].
    + constructor; [apply IH; exact H1|].
      eapply Permutation_Forall; [apply Permutation_sym; apply vinsert_perm|].
      constructor; [apply vleb_false_pos_le; exact E|exact H2].
Qed.
Lemma vsort_sorted l : StronglySorted pos_le (vsort l).
Proof. induction l as [|v l IH]; cbn [vsort]; [constructor|apply vinsert_sorted; exact IH]. Qed.

(* ---------- unit counts without cancellation ---------- *)
Definition clean_ok (V : list vertex) : Prop :=
  Forall unit_count V /\
  forall v w, In v V -> In w V -> vx v = vx w -> vy v = vy w -> vc v = vc w.

Lemma clean_ok_perm V W : Permutation V W -> clean_ok V -> clean_ok W.
Proof.
  intros P [H1 H2]. split; [eapply Permutation_Forall; eassumption|].
  intros v w Hv Hw. apply H2; eapply Permutation_in; try eassumption; apply Permutation_sym; exact P.
Qed.
Lemma clean_ok_nil : clean_ok [].
Proof. split; [constructor|]. intros v w []. Qed.
Lemma clean_ok_tail v V : clean_ok (v :: V) -> clean_ok V.
Proof.
  intros [H1 H2]. split; [inversion H1; assumption|].
  intros a b Ha Hb. apply H2; right; assumption.
Qed.
Lemma sorted_clean_canonical V : StronglySorted pos_le V -> clean_ok V -> canonical V.
Proof.
  intros S C. split; [exact (proj1 C)|].
  induction S as [|v V S IH Hf]; [constructor|].
  constructor; [apply IH; eapply clean_ok_tail; exact C|].
  apply Forall_forall. intros w Hw. rewrite Forall_forall in Hf. specialize (Hf w Hw).
  destruct C as [_ C2]. specialize (C2 v w (or_introl eq_refl) (or_intror Hw)).
  unfold canon_le, pos_lt, pos_le in *. lia.
Qed.
Lemma canonical_sorted V : canonical V -> StronglySorted pos_le V.
Proof.
  intros [_ S]. induction S as [|v V S IH Hf]; constructor; [exact IH|].
  eapply Forall_impl; [|exact Hf]. intros w Hw. unfold canon_le, pos_lt, pos_le in *. lia.
Qed.
Lemma canonical_clean_ok V : canonical V -> clean_ok V.
Proof.
  intros [H1 S]. split; [exact H1|]. clear H1.
  induction S as [|v V S IH Hf]; [intros v w []|].
  rewrite Forall_forall in Hf.
  assert (Hd : forall w, In w V -> vx v = vx w -> vy v = vy w -> vc v = vc w).
  { intros w Hw Hx Hy. specialize (Hf w Hw). unfold canon_le, pos_lt in Hf. lia. }
  intros a b [<-|Ha] [<-|Hb] Hx Hy.
  - reflexivity.
  - apply Hd; assumption.
  - symmetry. apply Hd; [assumption|symmetry; assumption|symmetry; assumption].
  - apply IH; assumption.
Qed.

(* a position that carries a vertex has a non-zero total *)
Lemma clean_ptotal_aux V a b c :
  (forall w, In w V -> vx w = a -> vy w = b -> vc w = c) ->
  exists n, 0 <= n /\ ptotal V a b = c * n /\ ((exists w, In w V /\ vx w = a /\ vy w = b) -> 1 <= n).
Proof.
  induction V as [|v V IH]; intros H.
  - exists 0. cbn [ptotal]. split; [lia|]. split; [lia|]. intros [w [[] _]].
  - destruct IH as [n [H1 [H2 H3]]]; [intros w Hw; apply H; right; exact Hw|].
    cbn [ptotal]. destruct (Z.eqb_spec (vx v) a) as [Ha|Ha]; [destruct (Z.eqb_spec (vy v) b) as [Hb|Hb]|]; cbn [andb].
    + exists (n + 1). rewrite (H v (or_introl eq_refl) Ha Hb), H2. split; [lia|]. split; lia.
    + exists n. split; [lia|]. split; [lia|]. intros [w [[<-|Hw] Hp]]; [lia|]. apply H3. exists w. split; assumption.
    + exists n. split; [lia|]. split; [lia|]. intros [w [[<-|Hw] Hp]]; [lia|]. apply H3. exists w. split; assumption.
Qed.
Lemma clean_ptotal_nonzero V v : clean_ok V -> In v V -> ptotal V (vx v) (vy v) <> 0.
Proof.
  intros [H1 H2] Hv.
  destruct (clean_ptotal_aux V (vx v) (vy v) (vc v)) as [n [N1 [N2 N3]]].
  { intros w Hw Hx Hy. apply H2; assumption. }
  assert (1 <= n) by (apply N3; exists v; repeat split; assumption).
  rewrite Forall_forall in H1. specialize (H1 v Hv). unfold unit_count in H1. nia.
Qed.

(* ---------- where the count can change ---------- *)
Lemma cnt_same_col V x y : (forall v, In v V -> vx v <> x) -> cnt V x y = cnt V (x - 1) y.
Proof.
  induction V as [|v V IH]; intros H; [reflexivity|]. cbn [cnt].
  rewrite IH by (intros w Hw; apply H; right; exact Hw).
  pose proof (H v (or_introl eq_refl)) as Hv.
  destruct (Z.leb_spec (vx v) x), (Z.leb_spec (vx v) (x - 1)); cbn [andb]; lia.
Qed.
Lemma cnt_same_row V x y : (forall v, In v V -> vy v <> y) -> cnt V x y = cnt V x (y - 1).
Proof.
  induction V as [|v V IH]; intros H; [reflexivity|]. cbn [cnt].
  rewrite IH by (intros w Hw; apply H; right; exact Hw).
  pose proof (H v (or_introl eq_refl)) as Hv.
  destruct (Z.leb_spec (vy v) y), (Z.leb_spec (vy v) (y - 1)); rewrite ?andb_true_r, ?andb_false_r; lia.
Qed.

Definition vint (v : vertex) : Prop := is_int (vx v) /\ is_int (vy v).
Definition dint (V : list vertex) : Prop := Forall vint V.

(* coordinates of a clean list whose count is a function of that of U *)
Lemma clean_coords V U g : clean_ok V ->
  (forall x y, cnt V x y = g (cnt U x y)) -> dint U -> dint V.
Proof.
  intros C H D. apply Forall_forall. intros v Hv.
  pose proof (clean_ptotal_nonzero V v C Hv) as Hp. rewrite ptotal_cnt, !H in Hp.
  assert (Hx : exists u, In u U /\ vx u = vx v).
  { destruct (Exists_dec (fun u => vx u = vx v) U) as [He|He].
    - intros u. apply Z.eq_dec.
    - apply Exists_exists in He. destruct He as [u [Hu1 Hu2]]. exists u. split; assumption.
    - exfalso. apply Hp.
      rewrite <- !(cnt_same_col U (vx v)); [lia| |].
      all: intros u Hu E; apply He; apply Exists_exists; exists u; split; assumption. }
  assert (Hy : exists u, In u U /\ vy u = vy v).
  { destruct (Exists_dec (fun u => vy u = vy v) U) as [He|He].
    - intros u. apply Z.eq_dec.
    - apply Exists_exists in He. destruct He as [u [Hu1 Hu2]]. exists u. split; assumption.
    - exfalso. apply Hp.
      rewrite <- !(cnt_same_row U _ (vy v)); [lia| |].
      all: intros u Hu E; apply He; apply Exists_exists; exists u; split; assumption. }
  unfold dint in D. rewrite Forall_forall in D.
  destruct Hx as [u [Hu Ex]], Hy as [u' [Hu' Ey]].
  split; [rewrite <- Ex; apply (D u Hu)|rewrite <- Ey; apply (D u' Hu')].
Qed.
Lemma clean_coords2 V U W g : clean_ok V ->
  (forall x y, cnt V x y = g (cnt U x y) (cnt W x y)) -> dint U -> dint W -> dint V.
Proof.
  intros C H DU DW. apply Forall_forall. intros v Hv.
  pose proof (clean_ptotal_nonzero V v C Hv) as Hp. rewrite ptotal_cnt, !H in Hp.
  assert (Hx : exists u, In u (U ++ W) /\ vx u = vx v).
  { destruct (Exists_dec (fun u => vx u = vx v) (U ++ W)) as [He|He].
    - intros u. apply Z.eq_dec.
    - apply Exists_exists in He. destruct He as [u [Hu1 Hu2]]. exists u. split; assumption.
    - exfalso. apply Hp.
      rewrite <- !(cnt_same_col U (vx v)), <- !(cnt_same_col W (vx v)); [lia| | | |].
      all: intros u Hu E; apply He; apply Exists_exists; exists u; split; [apply in_or_app; tauto|assumption]. }
  assert (Hy : exists u, In u (U ++ W) /\ vy u = vy v).
  { destruct (Exists_dec (fun u => vy u = vy v) (U ++ W)) as [He|He].
    - intros u. apply Z.eq_dec.
    - apply Exists_exists in He. destruct He as [u [Hu1 Hu2]]. exists u. split; assumption.
    - exfalso. apply Hp.
      rewrite <- !(cnt_same_row U _ (vy v)), <- !(cnt_same_row W _ (vy v)); [lia| | | |].
      all: intros u Hu E; apply He; apply Exists_exists; exists u; split; [apply in_or_app; tauto|assumption]. }
  assert (D : dint (U ++ W)) by (apply Forall_app; split; assumption).
  unfold dint in D. rewrite Forall_forall in D.
  destruct Hx as [u [Hu Ex]], Hy as [u' [Hu' Ey]].
  split; [rewrite <- Ex; apply (D u Hu)|rewrite <- Ey; apply (D u' Hu')].
Qed.

(* closedness of data whose count vanishes where the others do *)
Lemma closed_of_cnt V U g : g 0 = 0 -> (forall x y, cnt V x y = g (cnt U x y)) -> closed U -> closed V.
Proof.
  intros G H C. apply closed_bounded in C. destruct C as [M HM]. apply closed_bounded.
  exists M. intros x y Hxy. rewrite H, HM by exact Hxy. exact G.
Qed.
Lemma closed_of_cnt2 V U W g : g 0 0 = 0 -> (forall x y, cnt V x y = g (cnt U x y) (cnt W x y)) ->
  closed U -> closed W -> closed V.
Proof.
  intros G H C D. apply closed_bounded in C, D. destruct C as [M HM], D as [N HN]. apply closed_bounded.
  exists (Z.max M N). intros x y Hxy. rewrite H, HM, HN by lia. exact G.
Qed.

(* ---------- coordinate changes ---------- *)
Lemma cnt_vswap V x y : cnt (map vswap V) x y = cnt V y x.
Proof.
  induction V as [|v V IH]; [reflexivity|]. cbn [map cnt]. rewrite IH. unfold vswap, vx, vy, vc. cbn [fst snd].
  rewrite andb_comm. reflexivity.
Qed.
Lemma vswap_invol v : vswap (vswap v) = v.
Proof. destruct v as [a [b c]]. reflexivity. Qed.
Lemma map_vswap_invol V : map vswap (map vswap V) = V.
Proof. rewrite map_map. rewrite (map_ext _ (fun v => v)); [apply map_id|]. intros v. apply vswap_invol. Qed.
Lemma closed_vswap V : closed V -> closed (map vswap V).
Proof.
  intros C. apply closed_bounded in C. destruct C as [M HM]. apply closed_bounded.
  exists M. intros x y H. rewrite cnt_vswap. apply HM. lia.
Qed.
Lemma dint_vswap V : dint V -> dint (map vswap V).
Proof.
  intros D. apply Forall_map. eapply Forall_impl; [|exact D]. intros v [H1 H2]. split; assumption.
Qed.

Definition vshift (da db : Z) (v : vertex) : vertex := (vx v + da, (vy v + db, vc v)).
Lemma cnt_vshift da db V x y : cnt (map (vshift da db) V) x y = cnt V (x - da) (y - db).
Proof.
  induction V as [|v V IH]; [reflexivity|]. cbn [map cnt]. rewrite IH.
  unfold vshift, vx, vy, vc. cbn [fst snd].
  replace (fst v + da <=? x) with (fst v <=? x - da) by lia.
  replace (fst (snd v) + db <=? y) with (fst (snd v) <=? y - db) by lia. reflexivity.
Qed.

Definition vflip (sx sy : bool) (v : vertex) : vertex :=
  ((if sx then - vx v else vx v), ((if sy then - vy v else vy v), if xorb sx sy then - vc v else vc v)).
Definition cflip (s : bool) (x : Z) : Z := if s then - x - 1 else x.
Lemma cnt_vflip_x V x y : rows_closed V -> cnt (map (vflip true false) V) x y = cnt V (- x - 1) y.
Proof.
  intros R. pose proof (rows_closed_prefix V R y) as P.
  assert (H : cnt (map (vflip true false) V) x y = cnt V (- x - 1) y - row_prefix V y).
  { clear R P. induction V as [|v V IH]; [reflexivity|]. cbn [map cnt row_prefix fold_right].
    fold (row_prefix V y). rewrite IH. unfold vflip, vx, vy, vc. cbn [fst snd xorb].
    destruct (Z.leb_spec (- fst v) x), (Z.leb_spec (fst v) (- x - 1)), (Z.leb_spec (fst (snd v)) y); cbn [andb]; lia. }
  lia.
Qed.
Lemma cnt_vflip_y V x y : cols_closed V -> cnt (map (vflip false true) V) x y = cnt V x (- y - 1).
Proof.
  intros R. pose proof (cols_closed_prefix V R x) as P.
  assert (H : cnt (map (vflip false true) V) x y = cnt V x (- y - 1) - col_prefix V x).
  { clear R P. induction V as [|v V IH]; [reflexivity|]. cbn [map cnt col_prefix fold_right].
    fold (col_prefix V x). rewrite IH. unfold vflip, vx, vy, vc. cbn [fst snd xorb].
    destruct (Z.leb_spec (- fst (snd v)) y), (Z.leb_spec (fst (snd v)) (- y - 1)), (Z.leb_spec (fst v) x);
      cbn [andb]; lia. }
  lia.
Qed.
Lemma vflip_comp v : vflip true true v = vflip true false (vflip false true v).
Proof. destruct v as [a [b c]]. unfold vflip, vx, vy, vc. cbn [fst snd xorb]. f_equal. f_equal. lia. Qed.
Lemma vflip_id v : vflip false false v = v.
Proof. destruct v as [a [b c]]. reflexivity. Qed.
Lemma cnt_vflip sx sy V x y : closed V -> cnt (map (vflip sx sy) V) x y = cnt V (cflip sx x) (cflip sy y).
Proof.
  intros [Hc Hr]. destruct sx, sy; unfold cflip.
  - rewrite (map_ext _ _ vflip_comp), <- map_map.
    rewrite cnt_vflip_x.
    + apply cnt_vflip_y. exact Hc.
    + assert (C : closed (map (vflip false true) V)); [|exact (proj2 C)].
      pose proof (conj Hc Hr) as C. apply closed_bounded in C. destruct C as [M HM]. apply closed_bounded.
      exists (M + 1). intros a b Hab. rewrite cnt_vflip_y by exact Hc. apply HM. lia.
  - apply cnt_vflip_x. exact Hr.
  - apply cnt_vflip_y. exact Hc.
  - rewrite (map_ext _ _ vflip_id), map_id. reflexivity.
Qed.

Definition vscale (k : Z) (v : vertex) : vertex := (vx v * k, (vy v * k, vc v)).
Lemma cnt_vscale k V x y : 0 < k -> cnt (map (vscale k) V) x y = cnt V (x / k) (y / k).
Proof.
  intros Hk. assert (H : forall a b, (a * k <=? b) = (a <=? b / k)).
  { intros a b. destruct (Z.leb_spec a (b / k)) as [H|H].
    - apply Z.leb_le. pose proof (Z.mul_div_le b k Hk). nia.
    - apply Z.leb_gt. pose proof (Z.mul_succ_div_gt b k Hk). nia. }
  induction V as [|v V IH]; [reflexivity|]. cbn [map cnt]. rewrite IH.
  unfold vscale, vx, vy, vc. cbn [fst snd]. rewrite !H. reflexivity.
Qed.

(* maps of vertices that keep clean_ok: injective on positions, counts times a
   common sign *)
Lemma clean_ok_map h V :
  (forall v, vc (h v) = vc v \/ vc (h v) = - vc v) ->
  (forall v w, vx (h v) = vx (h w) -> vy (h v) = vy (h w) -> vx v = vx w /\ vy v = vy w) ->
  (forall v w, vc v = vc w -> vc (h v) = vc (h w)) ->
  clean_ok V -> clean_ok (map h V).
Proof.
  intros H1 H2 H3 [C1 C2]. split.
  - apply Forall_map. eapply Forall_impl; [|exact C1]. intros v Hv. unfold unit_count in *.
    specialize (H1 v). lia.
  - intros v w Hv Hw Hx Hy. apply in_map_iff in Hv. apply in_map_iff in Hw.
    destruct Hv as [v0 [<- Hv]], Hw as [w0 [<- Hw]].
    destruct (H2 _ _ Hx Hy) as [E1 E2]. apply H3. apply C2; assumption.
Qed.
Lemma clean_ok_vswap V : clean_ok V -> clean_ok (map vswap V).
Proof.
  apply clean_ok_map; intros v; try intros w; unfold vswap, vx, vy, vc; cbn [fst snd]; tauto.
Qed.
Lemma sorted_map h V : (forall v w, pos_le v w -> pos_le (h v) (h w)) ->
  StronglySorted pos_le V -> StronglySorted pos_le (map h V).
Proof.
  intros H S. induction S as [|v V S IH Hf]; [constructor|]. cbn [map]. constructor; [exact IH|].
  apply Forall_map. eapply Forall_impl; [|exact Hf]. intros w Hw. apply H. exact Hw.
Qed.

(* ---------- checked maps ---------- *)
Lemma chk_ok z z' : chk z = Ok z' -> z' = z /\ is_int z.
Proof.
  unfold chk. destruct (Z.leb_spec INT_MIN z), (Z.leb_spec z INT_MAX); cbn [andb]; intros E; try discriminate E.
  injection E as <-. split; [reflexivity|]. split; assumption.
Qed.
Lemma chk_not_undef z : chk z <> Undefined.
Proof. unfold chk. destruct (_ && _); discriminate. Qed.
Lemma chk_int z : is_int z -> chk z = Ok z.
Proof. unfold is_int, chk. intros H. destruct (Z.leb_spec INT_MIN z), (Z.leb_spec z INT_MAX); try lia; reflexivity. Qed.
Lemma map_vertices_ok g h l : (forall v v', g v = Ok v' -> v' = h v /\ vint v') ->
  forall l', map_vertices g l = Ok l' -> l' = map h l /\ dint l'.
Proof.
  intros H. induction l as [|v l IH]; intros l'; cbn [map_vertices map].
  - intros E. injection E as <-. split; [reflexivity|constructor].
  - destruct (g v) as [v'| |] eqn:Ev; cbn [obind]; try discriminate.
    fold (map_vertices g). destruct (map_vertices g l) as [l''| |]; cbn [obind]; try discriminate.
    intros E. injection E as <-. destruct (H _ _ Ev) as [-> Hi]. destruct (IH _ eq_refl) as [-> Hd].
    split; [reflexivity|]. constructor; assumption.
Qed.
Lemma map_vertices_def g l : (forall v, g v <> Undefined) -> map_vertices g l <> Undefined.
Proof.
  intros H. induction l as [|v l IH]; cbn [map_vertices]; [discriminate|].
  specialize (H v). destruct (g v); cbn [obind]; try congruence.
  fold (map_vertices g). destruct (map_vertices g l); cbn [obind]; congruence.
Qed.
