(* edge_utils: slopes and sides are exact. *)
From Verif Require Import Base Units Outcome Scan90Spec Poly90Spec Poly90Model Poly90Proofs.
From Verif Require Import Set90Spec Set90Model GeoSpec IvlModel IvlProofs RectModel RectProofs SegModel SegProofs PolySpec PolyModel.

Lemma umul64_small a b : 0 <= a < 2 ^ 32 -> 0 <= b < 2 ^ 32 -> umul64 a b = a * b.
Proof. intros A B. unfold umul64. apply Z.mod_small. nia. Qed.
Definition dif (d : Z) : Prop := - (2 ^ 32 - 1) <= d <= 2 ^ 32 - 1.
Lemma dif_int a b : is_int a -> is_int b -> dif (a - b).
Proof. unfold is_int, INT_MIN, INT_MAX, dif. lia. Qed.
Lemma eu_abs_eq d : eu_abs d = Z.abs d.
Proof. unfold eu_abs. destruct (Z.ltb_spec d 0); lia. Qed.
Lemma sign_mul a b : (eu_sign a * eu_sign b = 1 \/ eu_sign a * eu_sign b = -1) /\ a * b = eu_sign a * eu_sign b * Z.abs (a * b).
Proof.
  rewrite Z.abs_mul. assert (A : a = eu_sign a * Z.abs a /\ (eu_sign a = 1 \/ eu_sign a = -1)) by (unfold eu_sign; destruct (Z.ltb_spec a 0); lia).
  assert (B : b = eu_sign b * Z.abs b /\ (eu_sign b = 1 \/ eu_sign b = -1)) by (unfold eu_sign; destruct (Z.ltb_spec b 0); lia).
  destruct A as [A1 A2], B as [B1 B2]. split; [destruct A2 as [-> | ->], B2 as [-> | ->]; lia|].
  rewrite A1 at 1. rewrite B1 at 1. ring.
Qed.
Lemma equal_slope4_spec dx1 dy1 dx2 dy2 : dif dx1 -> dif dy1 -> dif dx2 -> dif dy2 ->
  (eu_equal_slope4 dx1 dy1 dx2 dy2 = true <-> dx1 * dy2 = dy1 * dx2).
Proof.
  unfold dif. intros H1 H2 H3 H4. unfold eu_equal_slope4. rewrite !eu_abs_eq, !umul64_small by lia.
  rewrite <- !Z.abs_mul. destruct (sign_mul dx2 dy1) as [S1 R1]. destruct (sign_mul dx1 dy2) as [S2 R2].
  rewrite (Z.mul_comm dy1 dx2). set (P := dx2 * dy1) in *. set (R := dx1 * dy2) in *.
  set (s := eu_sign dx2 * eu_sign dy1) in *. set (t := eu_sign dx1 * eu_sign dy2) in *. clearbody P R s t.
  rewrite andb_true_iff, orb_true_iff, !Z.eqb_eq. destruct S1 as [-> | ->], S2 as [-> | ->]; lia.
Qed.
Lemma side_cross p a b : side (mk_seg a b) p = (px a - px p) * (py b - py p) - (py a - py p) * (px b - px p).
Proof. unfold side, cross. cbn [s_low s_high px py]. ring. Qed.
Lemma equal_slope_spec p a b : pt_int p -> pt_int a -> pt_int b ->
  (eu_equal_slope p a b = true <-> side (mk_seg a b) p = 0).
Proof.
  intros [P1 P2] [A1 A2] [B1 B2]. unfold eu_equal_slope. rewrite equal_slope4_spec by (apply dif_int; assumption).
  rewrite side_cross. lia.
Qed.
(* the sign test of less_slope *)
Lemma less_slope4_spec dx1 dy1 dx2 dy2 : dif dx1 -> dif dy1 -> dif dx2 -> dif dy2 ->
  (eu_less_slope4 dx1 dy1 dx2 dy2 = true <->
   dx1 <> 0 /\ (dx2 = 0 \/ dx2 <> 0 /\ 0 < (dx1 * dx2) * (dx1 * dy2 - dy1 * dx2))).
Proof.
  unfold dif. intros H1 H2 H3 H4. unfold eu_less_slope4.
  destruct (Z.eqb_spec dx1 0) as [X1|X1]; [split; [discriminate|lia]|].
  assert (R1 : exists u v, (if dx1 <? 0 then (dx1 * -1, dy1 * -1) else (dx1, dy1)) = (u, v) /\ 0 < u <= 2 ^ 32 - 1 /\ - (2 ^ 32 - 1) <= v <= 2 ^ 32 - 1 /\
     ((u = dx1 /\ v = dy1) \/ (u = - dx1 /\ v = - dy1))).
  { destruct (Z.ltb_spec dx1 0); eexists _, _; (split; [reflexivity|]); repeat split; try lia. }
  destruct R1 as [u1 [v1 [-> [U1 [V1 S1]]]]].
  destruct (Z.eqb_spec dx2 0) as [X2|X2].
  { destruct (Z.eqb_spec u1 0); cbn [negb]; [lia|]. intuition. }
  assert (R2 : exists u v, (if dx2 <? 0 then (dx2 * -1, dy2 * -1) else (dx2, dy2)) = (u, v) /\ 0 < u <= 2 ^ 32 - 1 /\ - (2 ^ 32 - 1) <= v <= 2 ^ 32 - 1 /\
     ((u = dx2 /\ v = dy2) \/ (u = - dx2 /\ v = - dy2))).
  { destruct (Z.ltb_spec dx2 0); eexists _, _; (split; [reflexivity|]); repeat split; try lia. }
  destruct R2 as [u2 [v2 [-> [U2 [V2 S2]]]]].
  assert (G : (dx1 <> 0 /\ (dx2 = 0 \/ dx2 <> 0 /\ 0 < dx1 * dx2 * (dx1 * dy2 - dy1 * dx2))) <-> v1 * u2 < v2 * u1).
  { assert (K : dx1 * dx2 * (dx1 * dy2 - dy1 * dx2) = u1 * u2 * (u1 * v2 - v1 * u2)).
    { destruct S1 as [[-> ->]|[-> ->]], S2 as [[-> ->]|[-> ->]]; ring. }
    rewrite K. assert (PP : 0 < u1 * u2) by (apply Z.mul_pos_pos; lia).
    rewrite Z.mul_pos_cancel_l by exact PP. split; [intros [_ [?|[_ HH]]]; lia|].
    intros HH. split; [exact X1|]. right. split; [exact X2|]. lia. }
  rewrite G. clear G S1 S2. rewrite !eu_abs_eq, !umul64_small by lia. unfold eu_sign.
  destruct (Z.ltb_spec u1 0), (Z.ltb_spec u2 0); try lia.
  rewrite (Z.abs_eq u1), (Z.abs_eq u2) by lia. clear H1 H2 H3 H4 X1 X2.
  destruct U1 as [U1 _], U2 as [U2 _]. clear V1 V2.
  destruct (Z.ltb_spec v1 0) as [W1|W1], (Z.ltb_spec v2 0) as [W2|W2];
  [rewrite (Z.abs_neq v1), (Z.abs_neq v2) by lia| | |rewrite (Z.abs_eq v1), (Z.abs_eq v2) by lia].
  - change (1 * -1 <? 1 * -1) with false. change (1 * -1 =? -1) with true. cbv iota. rewrite Z.ltb_lt. lia.
  - change (1 * -1 <? 1 * 1) with true. cbv iota. split; [intros _|reflexivity].
    assert (v1 * u2 < 0) by (apply Z.mul_neg_pos; lia). assert (0 <= v2 * u1) by (apply Z.mul_nonneg_nonneg; lia). lia.
  - change (1 * 1 <? 1 * -1) with false. change (1 * -1 <? 1 * 1) with true. cbv iota. split; [discriminate|].
    assert (v2 * u1 < 0) by (apply Z.mul_neg_pos; lia). assert (0 <= v1 * u2) by (apply Z.mul_nonneg_nonneg; lia). lia.
  - change (1 * 1 <? 1 * 1) with false. change (1 * 1 =? -1) with false. cbv iota. rewrite Z.ltb_lt. lia.
Qed.
Lemma slope_lt_cross dx1 dy1 dx2 dy2 : slope_lt (slope dx1 dy1) (slope dx2 dy2) <->
  dx1 <> 0 /\ (dx2 = 0 \/ dx2 <> 0 /\ 0 < (dx1 * dx2) * (dx1 * dy2 - dy1 * dx2)).
Proof.
  unfold slope. destruct (Z.eqb_spec dx1 0) as [X1|X1]; destruct (Z.eqb_spec dx2 0) as [X2|X2]; cbn [slope_lt]; try (intuition lia).
  assert (N1 : ~ (inject_Z dx1 == 0)%Q) by (change 0%Q with (inject_Z 0); rewrite inject_Z_injective; exact X1).
  assert (N2 : ~ (inject_Z dx2 == 0)%Q) by (change 0%Q with (inject_Z 0); rewrite inject_Z_injective; exact X2).
  assert (SQ : (0 < (inject_Z dx1 * inject_Z dx2) * (inject_Z dx1 * inject_Z dx2))%Q).
  { rewrite <- !inject_Z_mult. change 0%Q with (inject_Z 0). rewrite <- Zlt_Qlt. assert (dx1 * dx2 <> 0) by (apply Z.neq_mul_0; split; assumption). nia. }
  assert (E : (inject_Z dy2 / inject_Z dx2 - inject_Z dy1 / inject_Z dx1 ==
    inject_Z ((dx1 * dx2) * (dx1 * dy2 - dy1 * dx2)) / ((inject_Z dx1 * inject_Z dx2) * (inject_Z dx1 * inject_Z dx2)))%Q).
  { unfold Z.sub. rewrite !inject_Z_mult, inject_Z_plus, inject_Z_opp, !inject_Z_mult. field. split; assumption. }
  assert (G : (inject_Z dy1 / inject_Z dx1 < inject_Z dy2 / inject_Z dx2)%Q <-> (0 < inject_Z dy2 / inject_Z dx2 - inject_Z dy1 / inject_Z dx1)%Q) by (split; lra).
  rewrite G, E. set (D := (_ * _ * _)%Q) in *. set (n := dx1 * dx2 * _). clearbody D n. clear - SQ X1 X2.
  split.
  - intros H. split; [exact X1|]. right. split; [exact X2|]. rewrite Zlt_Qlt. change (inject_Z 0) with 0%Q.
    assert (ED : (inject_Z n == inject_Z n / D * D)%Q) by (field; lra). rewrite ED. nra.
  - intros [_ [?|[_ H]]]; [contradiction|]. rewrite Zlt_Qlt in H. change (inject_Z 0) with 0%Q in H.
    apply Qlt_shift_div_l; [exact SQ|]. lra.
Qed.
Lemma less_slope_spec p a b : pt_int p -> pt_int a -> pt_int b ->
  (eu_less_slope p a b = true <-> slope_lt (slope (px a - px p) (py a - py p)) (slope (px b - px p) (py b - py p))).
Proof.
  intros [P1 P2] [A1 A2] [B1 B2]. unfold eu_less_slope. rewrite less_slope4_spec by (apply dif_int; assumption).
  rewrite slope_lt_cross. reflexivity.
Qed.
Definition sd (a b p : point) : Z := side (mk_seg a b) p.
(* the side of a point that lies over or under the edge *)
Lemma oab_spec p a b : pt_int p -> pt_int a -> pt_int b -> px a <> px b ->
  Z.min (px a) (px b) <= px p <= Z.max (px a) (px b) ->
  eu_on_above_or_below p a b = Z.sgn (if px a <? px b then sd a b p else sd b a p).
Proof.
  intros Hp Ha Hb N I. pose proof Hp as [P1 P2]. pose proof Ha as [A1 A2]. pose proof Hb as [B1 B2].
  unfold eu_on_above_or_below, sd.
  assert (SW : side (mk_seg b a) p = - side (mk_seg a b) p) by (rewrite !side_cross; ring).
  rewrite SW. pose proof (side_cross p a b) as SC. set (c := side (mk_seg a b) p) in *.
  destruct (pt_eqb p a || pt_eqb p b) eqn:E.
  { assert (c = 0).
    { apply orb_true_iff in E. rewrite !pt_eqb_iff in E. destruct E as [->| ->]; rewrite SC; ring. }
    rewrite H. destruct (px a <? px b); reflexivity. }
  apply orb_false_iff in E as [E1 E2].
  assert (PA : p <> a) by (intros ->; rewrite pt_eqb_refl in E1; discriminate).
  assert (PB : p <> b) by (intros ->; rewrite pt_eqb_refl in E2; discriminate).
  assert (PA' : px p = px a -> py p <> py a) by (intros H1 H2; apply PA; destruct p, a; cbn in *; congruence).
  assert (PB' : px p = px b -> py p <> py b) by (intros H1 H2; apply PB; destruct p, b; cbn in *; congruence).
  destruct (eu_equal_slope p a b) eqn:E3.
  { apply equal_slope_spec in E3; try assumption. fold c in E3. rewrite E3. destruct (px a <? px b); reflexivity. }
  assert (C0 : c <> 0).
  { intros H. apply (equal_slope_spec p a b Hp Ha Hb) in H. congruence. }
  assert (LS : eu_less_slope p a b = true <-> px a <> px p /\ (px b = px p \/ px b <> px p /\ 0 < (px a - px p) * (px b - px p) * c)).
  { unfold eu_less_slope. rewrite less_slope4_spec by (apply dif_int; assumption). rewrite SC.
    split; intros [H1 [H2|[H2 H3]]]; (split; [lia|]); [left; lia|right; split; [lia|]|left; lia|right; split; [lia|]]; exact H3. }
  assert (PL : forall q r, pt_less q r = true <-> px q < px r \/ px q = px r /\ py q < py r).
  { intros q r. unfold pt_less. rewrite orb_true_iff, andb_true_iff, Z.ltb_lt, Z.eqb_eq, Z.ltb_lt. reflexivity. }
  assert (PLf : forall q r, ~ (px q < px r \/ px q = px r /\ py q < py r) -> pt_less q r = false).
  { intros q r Hn. rewrite <- PL in Hn. destruct (pt_less q r); [contradiction Hn; reflexivity|reflexivity]. }
  unfold eu_between.
  destruct (Z.ltb_spec (px a) (px b)) as [O|O].
  - rewrite (proj2 (PL a b)) by lia. rewrite (PLf b a) by lia.
    destruct (Z.eq_dec (px p) (px a)) as [XA|XA]; [|destruct (Z.eq_dec (px p) (px b)) as [XB|XB]].
    + assert (L : eu_less_slope p a b = false) by (destruct (eu_less_slope p a b); [destruct LS as [LS _]; destruct (LS eq_refl); lia|reflexivity]).
      rewrite L. rewrite (proj2 (PL p b)) by lia. cbn [andb].
      destruct (Z_lt_le_dec (py a) (py p)) as [Y|Y].
      * rewrite (proj2 (PL a p)) by lia. symmetry. apply Z.sgn_pos. nia.
      * rewrite (PLf a p) by lia. symmetry. apply Z.sgn_neg. nia.
    + assert (L : eu_less_slope p a b = true) by (apply LS; lia).
      rewrite L. rewrite (proj2 (PL a p)) by lia. rewrite andb_true_r.
      destruct (Z_lt_le_dec (py p) (py b)) as [Y|Y].
      * rewrite (proj2 (PL p b)) by lia. symmetry. apply Z.sgn_neg. nia.
      * rewrite (PLf p b) by lia. symmetry. apply Z.sgn_pos. nia.
    + rewrite (proj2 (PL p b)) by lia. rewrite (proj2 (PL a p)) by lia. cbn [andb].
      assert (DD : (px a - px p) * (px b - px p) < 0) by nia.
      destruct (eu_less_slope p a b) eqn:L.
      * destruct LS as [LS _]. destruct (LS eq_refl) as [_ [?|[_ LC]]]; [lia|]. symmetry. apply Z.sgn_neg. nia.
      * symmetry. apply Z.sgn_pos. destruct (Z_lt_le_dec 0 c) as [?|?]; [assumption|].
        destruct LS as [_ LS]. assert (false = true) by (apply LS; split; [lia|]; right; split; [lia|nia]). discriminate.
  - rewrite (PLf a b) by lia. rewrite (proj2 (PL b a)) by lia.
    destruct (Z.eq_dec (px p) (px a)) as [XA|XA]; [|destruct (Z.eq_dec (px p) (px b)) as [XB|XB]].
    + assert (L : eu_less_slope p a b = false) by (destruct (eu_less_slope p a b); [destruct LS as [LS _]; destruct (LS eq_refl); lia|reflexivity]).
      rewrite L. rewrite (proj2 (PL b p)) by lia. rewrite andb_true_r.
      destruct (Z_lt_le_dec (py a) (py p)) as [Y|Y].
      * rewrite (PLf p a) by lia. symmetry. apply Z.sgn_pos. nia.
      * rewrite (proj2 (PL p a)) by lia. symmetry. apply Z.sgn_neg. nia.
    + assert (L : eu_less_slope p a b = true) by (apply LS; lia).
      rewrite L. rewrite (proj2 (PL p a)) by lia. cbn [andb].
      destruct (Z_lt_le_dec (py p) (py b)) as [Y|Y].
      * rewrite (PLf b p) by lia. symmetry. apply Z.sgn_neg. nia.
      * rewrite (proj2 (PL b p)) by lia. symmetry. apply Z.sgn_pos. nia.
    + rewrite (proj2 (PL p a)) by lia. rewrite (proj2 (PL b p)) by lia. cbn [andb].
      assert (DD : (px a - px p) * (px b - px p) < 0) by nia.
      destruct (eu_less_slope p a b) eqn:L.
      * destruct LS as [LS _]. destruct (LS eq_refl) as [_ [?|[_ LC]]]; [lia|]. symmetry. apply Z.sgn_pos. nia.
      * symmetry. apply Z.sgn_neg. destruct (Z_lt_le_dec 0 c) as [?|?]; [lia|].
        destruct LS as [_ LS]. assert (false = true) by (apply LS; split; [lia|]; right; split; [lia|nia]). discriminate.
Qed.
Lemma sd_height a b p h : on_seg (mk_seg a b) (inject_Z (px p), h) ->
  (inject_Z (sd a b p) == inject_Z (px b - px a) * (inject_Z (py p) - h))%Q.
Proof.
  intros [t [_ [E1 E2]]]. unfold sd, side, cross, seg_at in *. cbn [s_low s_high px py fst snd] in *.
  rewrite <- E2. unfold Z.sub in *. repeat (rewrite inject_Z_plus in * || rewrite inject_Z_mult in * || rewrite inject_Z_opp in * ). rewrite <- E1. ring.
Qed.
Lemma sd_swap a b p : sd b a p = - sd a b p.
Proof. unfold sd. rewrite !side_cross. ring. Qed.
Lemma on_seg_sym a b q : on_seg (mk_seg a b) q -> on_seg (mk_seg b a) q.
Proof.
  intros [t [[T1 T2] [E1 E2]]]. exists (1 - t)%Q. split; [lra|]. unfold seg_at, same_pt in *. cbn [s_low s_high fst snd] in *.
  unfold Z.sub in *. rewrite !inject_Z_plus, !inject_Z_opp in *. rewrite <- E1, <- E2. split; ring.
Qed.
Lemma seg_height_exists a b p : px a <> px b -> Z.min (px a) (px b) <= px p <= Z.max (px a) (px b) ->
  exists h, on_seg (mk_seg a b) (inject_Z (px p), h).
Proof.
  intros N I.
  assert (NQ : ~ (inject_Z (px b - px a) == 0)%Q) by (change 0%Q with (inject_Z 0); rewrite inject_Z_injective; lia).
  set (t := (inject_Z (px p - px a) / inject_Z (px b - px a))%Q).
  exists (inject_Z (py a) + t * inject_Z (py b - py a))%Q, t. split.
  - unfold t. destruct (Z_lt_le_dec (px a) (px b)) as [O|O].
    + assert (0 < inject_Z (px b - px a))%Q by (change 0%Q with (inject_Z 0); rewrite <- Zlt_Qlt; lia).
      split; [apply Qle_shift_div_l|apply Qle_shift_div_r]; try assumption; rewrite ?Qmult_0_l, ?Qmult_1_l; [change 0%Q with (inject_Z 0)|]; rewrite <- Zle_Qle; lia.
    + assert (E : (inject_Z (px p - px a) / inject_Z (px b - px a) == inject_Z (px a - px p) / inject_Z (px a - px b))%Q).
      { replace (px a - px p) with (- (px p - px a)) by ring. replace (px a - px b) with (- (px b - px a)) by ring.
        rewrite !inject_Z_opp. field. exact NQ. }
      rewrite E. assert (0 < inject_Z (px a - px b))%Q by (change 0%Q with (inject_Z 0); rewrite <- Zlt_Qlt; lia).
      split; [apply Qle_shift_div_l|apply Qle_shift_div_r]; try assumption; rewrite ?Qmult_0_l, ?Qmult_1_l; [change 0%Q with (inject_Z 0)|]; rewrite <- Zle_Qle; lia.
  - unfold same_pt, seg_at. cbn [s_low s_high fst snd]. split; [|reflexivity]. unfold t.
    setoid_replace (inject_Z (px p - px a) / inject_Z (px b - px a) * inject_Z (px b - px a))%Q with (inject_Z (px p - px a)) by (field; exact NQ).
    unfold Z.sub. rewrite inject_Z_plus, inject_Z_opp. ring.
Qed.
Lemma oab_height p a b h : pt_int p -> pt_int a -> pt_int b -> px a <> px b ->
  Z.min (px a) (px b) <= px p <= Z.max (px a) (px b) -> on_seg (mk_seg a b) (inject_Z (px p), h) ->
  (eu_on_above_or_below p a b = 1 <-> (h < inject_Z (py p))%Q) /\
  (eu_on_above_or_below p a b = 0 <-> (h == inject_Z (py p))%Q) /\
  (eu_on_above_or_below p a b = -1 <-> (inject_Z (py p) < h)%Q).
Proof.
  intros Hp Ha Hb N I H. rewrite (oab_spec p a b Hp Ha Hb N I).
  assert (K : exists d k, 0 < d /\ (if px a <? px b then sd a b p else sd b a p) = k /\ (inject_Z k == inject_Z d * (inject_Z (py p) - h))%Q).
  { destruct (Z.ltb_spec (px a) (px b)) as [O|O].
    - exists (px b - px a), (sd a b p). split; [lia|]. split; [reflexivity|]. apply sd_height, H.
    - exists (px a - px b), (sd b a p). split; [lia|]. split; [reflexivity|]. apply sd_height, on_seg_sym, H. }
  destruct K as [d [k [D [-> E]]]].
  assert (DQ : (0 < inject_Z d)%Q) by (change 0%Q with (inject_Z 0); rewrite <- Zlt_Qlt; exact D).
  set (y := inject_Z (py p)) in *. clearbody y.
  assert (K1 : 0 < k <-> (h < y)%Q).
  { rewrite Zlt_Qlt, E. change (inject_Z 0) with 0%Q. split; intros G; [|nra]. destruct (Qlt_le_dec h y); [assumption|nra]. }
  assert (K2 : k < 0 <-> (y < h)%Q).
  { rewrite Zlt_Qlt, E. change (inject_Z 0) with 0%Q. split; intros G; [|nra]. destruct (Qlt_le_dec y h); [assumption|nra]. }
  destruct (Z.sgn_spec k) as [[P ->]|[[P ->]|[P ->]]].
  - split; [|split]; (split; [try discriminate; intros _|]); try tauto; intros G; exfalso; apply K1 in P; lra.
  - subst k. split; [|split].
    + split; [discriminate|]. intros G. apply K1 in G. lia.
    + split; [intros _|reflexivity]. destruct (Qlt_le_dec h y) as [G|G]; [apply K1 in G; lia|]. destruct (Qlt_le_dec y h) as [G2|G2]; [apply K2 in G2; lia|]. lra.
    + split; [discriminate|]. intros G. apply K2 in G. lia.
  - split; [|split]; (split; [try discriminate; intros _|]); try tauto; intros G; exfalso; apply K2 in P; lra.
Qed.
