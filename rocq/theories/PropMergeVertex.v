(* processVertex as a whole. *)
From Coq Require Import Permutation.
From Verif Require Import Base Scan90Spec BoolOpModel VertexLemmas ScanMap ScanProcess Set90Spec Set90Model
  PropMergeSpec PropMergeModel PropMergeMap PropMergeStep.

Section Vertex.
Variable P : Z -> Prop.

Definition pos_ok (m : smap pmap) (pos : iter) : Prop := match pos with None => True | Some k => In k (map fst m) end.
Definition ms_ok (s : ms_state) : Prop :=
  good P (ms_scan s) /\ ksorted (ms_below s) /\ pos_ok (ms_scan s) (ms_pos s) /\
  (ms_below s <> [] -> In (ms_prevY s) (map fst (ms_scan s))).

Lemma key_split (m : smap pmap) k : In k (map fst m) -> exists A v C, m = A ++ (k, v) :: C.
Proof.
  intros H. apply in_map_iff in H. destruct H as [[k' v] [E H]]. cbn [fst] in E. subst k'.
  apply in_split in H. destruct H as [A [C ->]]. exists A, v, C. reflexivity.
Qed.
Lemma in_mid (A C : smap pmap) k v : In k (map fst (A ++ (k, v) :: C)).
Proof. rewrite map_app. apply in_or_app. right. left. reflexivity. Qed.
Lemma pos_begin (A C : smap pmap) : pos_ok (A ++ C) (m_begin C).
Proof. destruct C as [|[k v] C]; [exact I|]. apply in_mid. Qed.

Definition step_post (y : Z) (cur : pmap) (s s' : ms_state) : Prop :=
  ms_ok s' /\ ms_prevY s' = y /\ (forall p, pcount (ms_below s') p = pcount (ms_below s) p + pcount cur p) /\
  ((ms_below s = [] /\ ms_out s' = ms_out s /\ forall t, sv (ms_scan s') t = sv (ms_scan s) t) \/
   (ms_below s <> [] /\ upd_iv (ms_below s) (ms_prevY s) y (ms_scan s) (ms_scan s') /\
    rest_ok P (ms_below s) (ms_prevY s) y (ms_scan s) (ms_out s) (ms_out s'))).

(* lines 377-403 after the loop has reached the upper end *)
Lemma finish_spec (y : Z) (cur : pmap) (s : ms_state) (m : smap pmap) (out : list pedge) (pos : iter) :
  ms_ok s -> ksorted cur -> ms_below s <> [] ->
  good P m -> upd_iv (ms_below s) (ms_prevY s) y (ms_scan s) m ->
  rest_ok P (ms_below s) (ms_prevY s) y (ms_scan s) (ms_out s) out -> at_key m y pos ->
  exists s', match mergeCount (ms_below s) cur with
             | [] => do m1 <- erase_redundant y m; Some (mk_ms out m1 y (mergeCount (ms_below s) cur) pos)
             | _ => Some (mk_ms out m y (mergeCount (ms_below s) cur) pos)
             end = Some s' /\ step_post y cur s s'.
Proof.
  intros [H1 [H2 [H3 H4]]] Hc Hb HG HU HR [A [v [C [Em Ep]]]].
  pose proof (mergeCount_sorted (ms_below s) cur H2 Hc) as HS.
  pose proof (mergeCount_count (ms_below s) cur) as HC.
  destruct (mergeCount (ms_below s) cur) as [|b0 b] eqn:E.
  - subst m. destruct HG as [G1 [G2 G3]]. destruct (erase_redundant_spec A y v C G1) as [X [E1 HX]].
    destruct (drop_spec P A y v X C G1 HX) as [D1 [D2 [D3 D4]]].
    rewrite E1. cbn [bind]. eexists. split; [reflexivity|]. unfold step_post, ms_ok. cbn [ms_scan ms_below ms_pos ms_prevY ms_out]. unfold good.
    conj; try assumption.
    + exact (D4 G2).
    + rewrite D3. exact G3.
    + rewrite app_assoc, Ep. apply pos_begin.
    + intros H. contradiction H. reflexivity.
    + reflexivity.
    + right. conj; [exact Hb| |exact HR]. intros t. rewrite D2. apply HU.
  - eexists. split; [reflexivity|]. unfold step_post, ms_ok. cbn [ms_scan ms_below ms_pos ms_prevY ms_out].
    destruct HG as [G1 [G2 G3]]. unfold good. conj; try assumption.
    + rewrite Em, Ep. change (A ++ (y, v) :: C) with (A ++ [(y, v)] ++ C). rewrite app_assoc. apply pos_begin.
    + intros _. rewrite Em. apply in_mid.
    + reflexivity.
    + right. conj; [exact Hb|exact HU|exact HR].
Qed.

Lemma processVertex_interval y cur s : ms_ok s -> ksorted cur -> P y -> ms_below s <> [] -> ms_prevY s < y ->
  exists s', processVertex y cur s = Some s' /\ step_post y cur s s'.
Proof.
  intros Hok Hc Py Hb Hy. pose proof Hok as [H1 [H2 [H3 H4]]].
  destruct (key_split _ _ (H4 Hb)) as [A [v [C Em]]].
  assert (G := H1). rewrite Em in G. pose proof G as [G1 [G2 G3]].
  destruct (sorted_mid (ms_prevY s) v A C G1) as [K1 [K2 [K3 K4]]].
  assert (Elb : m_lower_bound (ms_prevY s) (ms_scan s) = Some (ms_prevY s)).
  { rewrite Em. rewrite m_lower_bound_app; [reflexivity|exact K1|]. apply kge_cons. split; [lia|]. eapply kge_weaken; [|exact K2]. lia. }
  assert (Epos : match ms_pos s with
                  | None => Some (m_lower_bound (ms_prevY s) (ms_scan s))
                  | Some _ => do e <- m_deref (ms_pos s) (ms_scan s);
                              Some (if fst e =? ms_prevY s then ms_pos s else m_lower_bound (ms_prevY s) (ms_scan s))
                  end = Some (Some (ms_prevY s))).
  { destruct (ms_pos s) as [k|]; [|rewrite Elb; reflexivity]. cbn [pos_ok] in H3.
    destruct (key_split _ _ H3) as [A' [v' [C' Em']]].
    assert (L' : klt k A').
    { assert (K := proj1 H1). rewrite Em' in K. apply sorted_mid in K. apply K. }
    assert (E' : m_deref (Some k) (ms_scan s) = Some (k, v')) by (rewrite Em'; apply m_deref_mid; exact L').
    rewrite E'. cbn [bind fst]. destruct (Z.eqb_spec k (ms_prevY s)) as [->|Hk]; [reflexivity|]. rewrite Elb. reflexivity. }
  assert (Ebelow : exists b0 b, ms_below s = b0 :: b).
  { destruct (ms_below s) as [|b0 b]; [contradiction Hb; reflexivity|]. exists b0, b. reflexivity. }
  destruct Ebelow as [b0 [b Ebelow]].
  assert (Edr : m_deref (Some (ms_prevY s)) (ms_scan s) = Some (ms_prevY s, v)) by (rewrite Em; apply m_deref_mid; exact K1).
  assert (Enx : m_incr (Some (ms_prevY s)) (ms_scan s) = Some (m_begin C)) by (rewrite Em; cbn [m_incr]; apply m_next_mid; exact K1).
  unfold processVertex. rewrite Ebelow. rewrite <- Ebelow. rewrite Epos. cbn [bind]. rewrite Edr. cbn [bind fst]. rewrite Enx. cbn [bind].
  destruct (list_eq_dec (fun x y : Z * pmap => ltac:(repeat decide equality)) C []) as [HC|HC].
  - (* the interval starts at the last element *)
    subst C. assert (Hv : v = []) by (rewrite lastval_app in G3; exact G3). subst v.
    cbn [m_begin]. assert (El : pv_loop (2 * length (ms_scan s) + 2) y (ms_below s) (ms_scan s) (ms_out s) (ms_prevY s) None (ms_prevY s)
      = Some (ms_scan s, ms_out s, ms_prevY s, None, ms_prevY s)).
    { rewrite Nat.add_comm. reflexivity. }
    rewrite El. cbn [bind]. destruct (Z.ltb_spec (ms_prevY s) y); [|lia].
    assert (Ei : m_insert (ms_prevY s) [] (ms_scan s) = ms_scan s).
    { rewrite Em. clear -K1. induction A as [|[a w] A IH]; cbn [app m_insert]; [rewrite Z.ltb_irrefl, Z.eqb_refl; reflexivity|].
      apply klt_cons in K1. destruct (Z.ltb_spec (ms_prevY s) a); [lia|]. destruct (Z.eqb_spec (ms_prevY s) a); [lia|].
      rewrite IH by apply K1. reflexivity. }
    rewrite Ei. assert (Ef : m_find (ms_prevY s) (ms_scan s) = Some []) by (rewrite Em; apply m_find_mid; exact K1).
    rewrite Ef. cbn [bind].
    set (w := mergeCount [] (ms_below s)).
    assert (Hlt : klt y (A ++ [(ms_prevY s, w)])).
    { apply klt_app. split; [eapply klt_weaken; [|exact K1]; lia|]. apply klt_cons. split; [lia|constructor]. }
    assert (Em2 : m_insert y [] (m_set (ms_prevY s) w (ms_scan s)) = A ++ [(ms_prevY s, w); (y, [])]).
    { rewrite Em, m_set_mid by exact K1. replace (A ++ [(ms_prevY s, w)]) with ((A ++ [(ms_prevY s, w)]) ++ []) by apply app_nil_r.
      rewrite m_insert_mid; [rewrite <- app_assoc; reflexivity|exact Hlt|constructor]. }
    rewrite Em2.
    assert (Hw : ksorted w) by (apply mergeCount_sorted; [constructor|exact H2]).
    assert (S2 : ksorted (A ++ [(ms_prevY s, w); (y, [])])).
    { change [(ms_prevY s, w); (y, [])] with ([(ms_prevY s, w)] ++ [(y, @nil (Z * Z))]). rewrite app_assoc.
      apply (ksorted_glue y); [|apply ksorted_cons; split; constructor|exact Hlt|apply kge_cons; split; [lia|constructor]].
      apply (ksorted_glue (ms_prevY s)); [exact K3|apply ksorted_cons; split; constructor|exact K1|apply kge_cons; split; [lia|constructor]]. }
    assert (HU : upd_iv (ms_below s) (ms_prevY s) y (ms_scan s) (A ++ [(ms_prevY s, w); (y, [])])).
    { intros t. rewrite Em. rewrite (sv_mid A _ w _ t S2), (sv_mid A _ [] _ t G1). cbn [mval].
      destruct (Z.leb_spec (ms_prevY s) t), (Z.leb_spec y t), (Z.ltb_spec t y); cbn [andb]; (lia || reflexivity). }
    assert (Hsv : forall t, ms_prevY s <= t -> sv (ms_scan s) t = []).
    { intros t Ht. rewrite Em, (sv_mid A _ [] _ t G1). cbn [mval]. destruct (ms_prevY s <=? t) eqn:E; [reflexivity|lia]. }
    apply vals_ok_app in G2. destruct G2 as [G2 G2']. apply vals_ok_cons in G2'. destruct G2' as [[G4 G5] _].
    assert (Hset : setProperty (mergeCount [] (ms_below s)) = setProperty (ms_below s)).
    { apply setProperty_ext; [exact Hw|exact H2|]. intros p. rewrite mergeCount_count. reflexivity. }
    eexists. split; [reflexivity|]. unfold step_post, ms_ok. cbn [ms_scan ms_below ms_pos ms_prevY ms_out pos_ok]. unfold good. conj.
    + exact S2.
    + apply vals_ok_app. split; [exact G2|]. apply vals_ok_cons. split; [split; assumption|]. apply vals_ok_cons. split; [split; [constructor|exact Py]|constructor].
    + rewrite lastval_app. reflexivity.
    + apply mergeCount_sorted; assumption.
    + exact I.
    + intros _. change [(ms_prevY s, w); (y, [])] with ([(ms_prevY s, w)] ++ [(y, @nil (Z * Z))]). rewrite app_assoc. apply in_mid.
    + reflexivity.
    + intros p. apply mergeCount_count.
    + right. conj; [exact Hb|exact HU|]. split.
      * intros S t. cbn [econ]. unfold econ1. cbn [pe_lo pe_hi pe_left pe_right]. rewrite at_iv_in by lia.
        destruct (Z.leb_spec (ms_prevY s) t), (Z.ltb_spec t y); cbn [andb]; try lia.
        rewrite Hsv by lia. rewrite Hset. cbn [setProperty]. lia.
      * intros R HR Hk. constructor; [|exact HR]. cbn [pe_lo pe_hi pe_left pe_right]. split; [exact Py|].
        specialize (Hk (ms_prevY s) ltac:(lia) G5). rewrite Hsv in Hk by lia. rewrite Hset in Hk. exact Hk.
  - destruct (loop_spec P (ms_below s) H2 y Py C A (ms_prevY s) v (ms_out s) (2 * length (ms_scan s) + 2)) as [r [E Hr]];
      [exact G|exact HC|exact Hy| |].
    { rewrite Em, app_length. cbn [length]. lia. }
    rewrite <- Em in E, Hr. rewrite E. cbn [bind].
    destruct r as [[[[m out] prev] pos] curY]. unfold loop_post in Hr. destruct Hr as [R1 [R2 [R3 [R4 [R5 R6]]]]]. subst prev curY.
    destruct (finish_spec y cur s m out pos Hok Hc Hb R1 R2 R3 R4) as [s' [E' Hs']].
    exists s'. split; [|exact Hs']. rewrite Z.ltb_irrefl. destruct pos as [k|]; exact E'.
Qed.

Lemma processVertex_start y cur s : ms_ok s -> ksorted cur -> P y -> ms_below s = [] ->
  exists s', processVertex y cur s = Some s' /\ step_post y cur s s'.
Proof.
  intros [H1 [H2 [H3 H4]]] Hc Py Hb. destruct H1 as [G1 [G2 G3]].
  unfold processVertex. rewrite Hb.
  destruct (ksorted_split y (ms_scan s) G1) as [A [C [Em [K1 K2]]]].
  assert (SA : ksorted A /\ ksorted C) by (rewrite Em in G1; apply ksorted_app in G1; tauto).
  assert (Elb : m_lower_bound y (ms_scan s) = m_begin C) by (rewrite Em; apply m_lower_bound_app; assumption).
  rewrite Elb.
  (* inserting the value below changes nothing *)
  assert (Hins : kge (y + 1) C -> forall v, v = lastval [] A ->
    step_post y cur s (mk_ms (ms_out s) (m_insert y v (ms_scan s)) y cur (Some y))).
  { intros K2' v Hv. assert (Ei : m_insert y v (ms_scan s) = A ++ (y, v) :: C) by (rewrite Em; apply m_insert_mid; assumption).
    rewrite Ei.
    assert (S1 : ksorted (A ++ (y, v) :: C)).
    { apply (ksorted_glue y); [apply SA| |exact K1|apply kge_cons; split; [lia|exact K2]]. apply ksorted_cons. split; [apply SA|exact K2']. }
    assert (Hsv : ksorted v).
    { rewrite Hv. rewrite Em in G2. apply vals_ok_app in G2. apply (vals_last P); [constructor|apply G2]. }
    unfold step_post, ms_ok. cbn [ms_scan ms_below ms_pos ms_prevY ms_out pos_ok]. unfold good. conj; try assumption.
    - rewrite Em in G2. apply vals_ok_app in G2. apply vals_ok_app. split; [apply G2|]. apply vals_ok_cons. split; [split; assumption|apply G2].
    - rewrite Em in G3. rewrite lastval_app in *. cbn [lastval]. rewrite Hv. exact G3.
    - apply in_mid.
    - intros _. apply in_mid.
    - reflexivity.
    - intros p. rewrite Hb. cbn [pcount]. lia.
    - left. conj; [exact Hb|reflexivity|]. intros t. rewrite sv_mid by exact S1. rewrite Em.
      rewrite (sv_split A C y t) by (try assumption; rewrite Em in G1; exact G1). rewrite Hv. reflexivity. }
  destruct C as [|[k w] C]; cbn [m_begin].
  - rewrite app_nil_r in Em. eexists. split; [reflexivity|]. apply Hins; [constructor|]. rewrite Em in G3. symmetry. exact G3.
  - apply kge_cons in K2. destruct K2 as [K2 K3]. destruct (Z.eqb_spec k y) as [->|Hk]; cbn [negb].
    + eexists. split; [reflexivity|].
      unfold step_post, ms_ok. cbn [ms_scan ms_below ms_pos ms_prevY ms_out pos_ok]. unfold good. conj; try assumption.
      * rewrite Em. apply in_mid.
      * intros _. rewrite Em. apply in_mid.
      * reflexivity.
      * intros p. rewrite Hb. cbn [pcount]. lia.
      * left. conj; [exact Hb|reflexivity|]. intros t. reflexivity.
    + assert (K2' : kge (y + 1) ((k, w) :: C)).
      { apply kge_cons. split; [lia|]. destruct SA as [_ SA]. apply ksorted_cons in SA. eapply kge_weaken; [|apply SA]. lia. }
      destruct (snoc_cases A) as [->|[A' [a [va ->]]]].
      * cbn [app] in Em. assert (Eb : iter_eqb (Some k) (m_begin (ms_scan s)) = true) by (rewrite Em; cbn [m_begin]; apply iter_eqb_refl).
        rewrite Eb. cbn [negb].
        eexists. split; [reflexivity|]. apply (Hins K2'). reflexivity.
      * assert (G1' := G1). rewrite Em in G1'. change (Some k) with (m_begin ((k, w) :: C)).
        assert (Eb : iter_eqb (m_begin ((k, w) :: C)) (m_begin (ms_scan s)) = false) by (rewrite Em; apply begin_ne_nonempty; exact G1').
        rewrite Eb. cbn [negb].
        rewrite <- app_assoc in Em, G1'. cbn [app] in Em, G1'.
        assert (Ed : m_decr (m_begin ((k, w) :: C)) (ms_scan s) = Some (Some a)) by (rewrite Em; apply decr_snoc; exact G1').
        rewrite Ed. cbn [bind].
        assert (Ef : m_deref (Some a) (ms_scan s) = Some (a, va)).
        { rewrite Em. apply m_deref_mid. apply sorted_mid in G1'. apply G1'. }
        rewrite Ef. cbn [bind snd]. eexists. split; [reflexivity|]. apply (Hins K2'). rewrite lastval_snoc. reflexivity.
Qed.

Theorem processVertex_spec y cur s : ms_ok s -> ksorted cur -> P y -> (ms_below s <> [] -> ms_prevY s < y) ->
  exists s', processVertex y cur s = Some s' /\ step_post y cur s s'.
Proof.
  intros H Hc Py Hy. destruct (ms_below s) as [|b0 b] eqn:E.
  - apply processVertex_start; assumption.
  - apply processVertex_interval; try assumption; rewrite ?E; [discriminate|apply Hy; discriminate].
Qed.
End Vertex.
