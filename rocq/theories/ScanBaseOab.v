(* on_above_or_below is exact for all points. *)
From Verif Require Import Base Units Outcome Scan90Spec Poly90Spec Poly90Model Poly90Proofs.
From Verif Require Import Set90Spec Set90Model GeoSpec IvlModel IvlProofs RectModel RectProofs SegModel SegProofs PolySpec PolyModel PolyEdge ScanBaseModel.

Lemma pt_less_iff q r : pt_less q r = true <-> px q < px r \/ px q = px r /\ py q < py r.
Proof. unfold pt_less. rewrite orb_true_iff, andb_true_iff, Z.ltb_lt, Z.eqb_eq, Z.ltb_lt. reflexivity. Qed.
Lemma pt_less_irrefl p : pt_less p p = false.
Proof. destruct (pt_less p p) eqn:E; [|reflexivity]. apply pt_less_iff in E. lia. Qed.
Lemma pt_less_total p q : pt_less p q = false -> pt_less q p = false -> p = q.
Proof.
  intros H K. destruct p as [a b], q as [c d]. unfold pt_less in *. cbn [px py] in *.
  apply orb_false_iff in H as [H H']. apply orb_false_iff in K as [K K'].
  apply andb_false_iff in H'. apply andb_false_iff in K'. rewrite Z.ltb_ge in *. rewrite !Z.eqb_neq in *. f_equal; lia.
Qed.
Lemma pt_less_asym p q : pt_less p q = true -> pt_less q p = false.
Proof. intros H. destruct (pt_less q p) eqn:K; [|reflexivity]. apply pt_less_iff in H. apply pt_less_iff in K. lia. Qed.
Lemma pt_less_trans p q r : pt_less p q = true -> pt_less q r = true -> pt_less p r = true.
Proof. rewrite !pt_less_iff. lia. Qed.
Lemma pt_ne p q : p <> q -> px p <> px q \/ py p <> py q.
Proof. intros N. destruct (Z.eq_dec (px p) (px q)); [|left; assumption]. right. intros E. apply N. destruct p, q. cbn in *. congruence. Qed.

Lemma less_slope_c p a b : pt_int p -> pt_int a -> pt_int b ->
  (eu_less_slope p a b = true <-> px a <> px p /\ (px b = px p \/ px b <> px p /\ 0 < (px a - px p) * (px b - px p) * side (mk_seg a b) p)).
Proof.
  intros [P1 P2] [A1 A2] [B1 B2]. unfold eu_less_slope. rewrite less_slope4_spec by (apply dif_int; assumption). rewrite side_cross.
  split; intros [H1 [H2|[H2 H3]]]; (split; [lia|]); [left; lia|right; split; [lia|]|left; lia|right; split; [lia|]]; exact H3.
Qed.
Lemma oab_up p a b : pt_int p -> pt_int a -> pt_int b -> pt_less a b = true -> eu_on_above_or_below p a b = Z.sgn (side (mk_seg a b) p).
Proof.
  intros Hp Ha Hb O. unfold eu_on_above_or_below. pose proof (side_cross p a b) as SC.
  pose proof (less_slope_c p a b Hp Ha Hb) as LS. set (c := side (mk_seg a b) p) in *.
  destruct (pt_eqb p a || pt_eqb p b) eqn:E.
  { assert (c = 0) as -> by (apply orb_true_iff in E; rewrite !pt_eqb_iff in E; destruct E as [->| ->]; rewrite SC; ring). reflexivity. }
  apply orb_false_iff in E as [E1 E2].
  assert (PA : px p <> px a \/ py p <> py a) by (apply pt_ne; intros ->; rewrite pt_eqb_refl in E1; discriminate).
  assert (PB : px p <> px b \/ py p <> py b) by (apply pt_ne; intros ->; rewrite pt_eqb_refl in E2; discriminate).
  destruct (eu_equal_slope p a b) eqn:E3.
  { apply equal_slope_spec in E3; try assumption. fold c in E3. rewrite E3. reflexivity. }
  assert (C0 : c <> 0) by (intros H; apply (equal_slope_spec p a b Hp Ha Hb) in H; congruence).
  rewrite (pt_less_asym _ _ O). unfold eu_between. rewrite O. apply pt_less_iff in O.
  assert (PLf : forall q r, ~ (px q < px r \/ px q = px r /\ py q < py r) -> pt_less q r = false).
  { intros q r. rewrite <- pt_less_iff. destruct (pt_less q r); congruence. }
  assert (LSf : ~ (px a <> px p /\ (px b = px p \/ px b <> px p /\ 0 < (px a - px p) * (px b - px p) * c)) -> eu_less_slope p a b = false).
  { rewrite <- LS. destruct (eu_less_slope p a b); congruence. }
  apply proj2 in LS.
  assert (SG : c < 0 /\ Z.sgn c = -1 \/ 0 < c /\ Z.sgn c = 1) by lia.
  destruct (Z.lt_trichotomy (px a) (px p)) as [XA|[XA|XA]]; destruct (Z.lt_trichotomy (px b) (px p)) as [XB|[XB|XB]]; try (exfalso; lia).
  - (* both to the left *)
    assert (M : 0 < (px a - px p) * (px b - px p)) by nia. rewrite (PLf p b) by lia. cbn [andb].
    destruct SG as [[G ->]|[G ->]]; [rewrite LSf; [reflexivity|]|rewrite LS; [reflexivity|]].
    + intros [_ [?|[_ K]]]; [lia|]. nia.
    + split; [lia|]. right. split; [lia|]. nia.
  - rewrite LS by lia. rewrite (proj2 (pt_less_iff a p)) by lia. rewrite andb_true_r.
    replace (px b - px p) with 0 in SC by lia.
    destruct (Z_lt_le_dec (py p) (py b)) as [Y|Y].
    + rewrite (proj2 (pt_less_iff p b)) by lia. assert (c < 0) by nia. lia.
    + rewrite (PLf p b) by lia. assert (0 < c) by nia. lia.
  - rewrite (proj2 (pt_less_iff p b)) by lia. rewrite (proj2 (pt_less_iff a p)) by lia. cbn [andb].
    assert (M : (px a - px p) * (px b - px p) < 0) by nia.
    destruct SG as [[G ->]|[G ->]]; [rewrite LS; [reflexivity|]|rewrite LSf; [reflexivity|]].
    + split; [lia|]. right. split; [lia|]. nia.
    + intros [_ [?|[_ K]]]; [lia|]. nia.
  - rewrite LSf by lia. rewrite (proj2 (pt_less_iff p b)) by lia. cbn [andb]. replace (px a - px p) with 0 in SC by lia.
    destruct (Z_lt_le_dec (py a) (py p)) as [Y|Y].
    + rewrite (proj2 (pt_less_iff a p)) by lia. assert (0 < c) by nia. lia.
    + rewrite (PLf a p) by lia. assert (c < 0) by nia. lia.
  - assert (M : 0 < (px a - px p) * (px b - px p)) by nia. rewrite (PLf a p) by lia. rewrite andb_false_r.
    destruct SG as [[G ->]|[G ->]]; [rewrite LSf; [reflexivity|]|rewrite LS; [reflexivity|]].
    + intros [_ [?|[_ K]]]; [lia|]. nia.
    + split; [lia|]. right. split; [lia|]. nia.
Qed.
Lemma side_swap a b p : side (mk_seg b a) p = - side (mk_seg a b) p.
Proof. rewrite !side_cross. ring. Qed.
(* the ends may be exchanged *)
Lemma oab_swap p a b : pt_int p -> pt_int a -> pt_int b -> a <> b -> eu_on_above_or_below p a b = eu_on_above_or_below p b a.
Proof.
  intros Hp Ha Hb N. unfold eu_on_above_or_below. rewrite (orb_comm (pt_eqb p b)). destruct (pt_eqb p a || pt_eqb p b); [reflexivity|].
  pose proof (equal_slope_spec p a b Hp Ha Hb) as E1. pose proof (equal_slope_spec p b a Hp Hb Ha) as E2. pose proof (side_cross p a b) as SC. rewrite side_swap in E2.
  pose proof (less_slope_c p a b Hp Ha Hb) as L1. pose proof (less_slope_c p b a Hp Hb Ha) as L2. rewrite side_swap in L2.
  set (c := side (mk_seg a b) p) in *.
  destruct (eu_equal_slope p a b) eqn:Q1.
  { assert (eu_equal_slope p b a = true) as -> by (apply E2; assert (c = 0) by (apply E1; reflexivity); lia). reflexivity. }
  assert (C0 : c <> 0) by (intros K; apply E1 in K; discriminate).
  assert (eu_equal_slope p b a = false) as -> by (destruct (eu_equal_slope p b a); [exfalso; apply C0; assert (- c = 0) by (apply E2; reflexivity); lia|reflexivity]).
  assert (BT : eu_between p a b = eu_between p b a).
  { unfold eu_between. destruct (pt_less a b) eqn:H.
    - rewrite (pt_less_asym _ _ H). reflexivity.
    - destruct (pt_less b a) eqn:H'; [reflexivity|]. contradiction N. apply pt_less_total; assumption. }
  rewrite BT.
  assert (LL : eu_less_slope p b a = negb (eu_less_slope p a b)).
  { destruct (eu_less_slope p a b) eqn:H.
    - apply proj1 in L1. specialize (L1 eq_refl). cbn [negb]. destruct (eu_less_slope p b a); [|reflexivity]. apply proj1 in L2. specialize (L2 eq_refl).
      destruct L1 as [L1 [L3|[L3 L4]]]; [lia|]. destruct L2 as [_ [L5|[_ L5]]]; [lia|]. nia.
    - cbn [negb]. apply L2. apply proj2 in L1.
      destruct (Z.eq_dec (px b) (px p)) as [XB|XB].
      + exfalso. destruct (Z.eq_dec (px a) (px p)) as [XA|XA].
        * apply C0. rewrite SC. replace (px a - px p) with 0 by lia. replace (px b - px p) with 0 by lia. ring.
        * assert (false = true) by (apply L1; lia). discriminate.
      + split; [exact XB|]. destruct (Z.eq_dec (px a) (px p)) as [XA|XA]; [left; exact XA|]. right. split; [exact XA|].
        assert (M : (px a - px p) * (px b - px p) <> 0) by (apply Z.neq_mul_0; lia).
        assert (NL : ~ 0 < (px a - px p) * (px b - px p) * c) by (intros K; assert (false = true) by (apply L1; split; [exact XA|right; split; [exact XB|exact K]]); discriminate).
        assert ((px a - px p) * (px b - px p) * c <> 0) by (apply Z.neq_mul_0; split; assumption). lia. }
  rewrite LL. destruct (pt_less a b) eqn:H; [rewrite (pt_less_asym _ _ H)|destruct (pt_less b a) eqn:H'; [|contradiction N; apply pt_less_total; assumption]];
  destruct (eu_less_slope p a b), (eu_between p b a); reflexivity.
Qed.
Theorem oab_exact p a b : pt_int p -> pt_int a -> pt_int b ->
  eu_on_above_or_below p a b = Z.sgn (if pt_less b a then side (mk_seg b a) p else side (mk_seg a b) p).
Proof.
  intros Hp Ha Hb. destruct (pt_less b a) eqn:H.
  - rewrite oab_swap; try assumption; [apply oab_up; assumption|]. intros ->. rewrite pt_less_irrefl in H. discriminate.
  - destruct (pt_less a b) eqn:K; [apply oab_up; assumption|]. assert (a = b) by (apply pt_less_total; assumption). subst b.
    unfold eu_on_above_or_below. destruct (pt_eqb p a || pt_eqb p a); rewrite side_cross; [lia|].
    assert (eu_equal_slope p a a = true) as -> by (apply equal_slope_spec; try assumption; rewrite side_cross; ring). lia.
Qed.
Definition up_side (s : seg) (p : point) : Z := if pt_less (s_high s) (s_low s) then - side s p else side s p.
Corollary sb_oab_eq p s : pt_int p -> seg_int s -> sb_oab p s = Z.sgn (up_side s p).
Proof.
  intros P [A B]. unfold sb_oab, up_side. rewrite oab_exact by assumption. destruct s as [a b]. cbn [s_low s_high]. destruct (pt_less b a); [rewrite side_swap|]; reflexivity.
Qed.
