(* Lemmas about segments. *)
From Verif Require Import Base Scan90Spec Set90Spec Set90Model GeoSpec IvlModel IvlProofs RectModel RectProofs RectArith RectDist SegModel.

(* ---------- orientation ---------- *)
Lemma sgn_mul a b : Z.sgn (a * b) = Z.sgn a * Z.sgn b.
Proof. apply Z.sgn_mul. Qed.
Lemma orientation_eq s1 s2 : seg_int s1 -> seg_int s2 -> seg_orientation s1 s2 = Ok (Z.sgn (cross s1 s2)).
Proof.
  intros [[I1 I2] [I3 I4]] [[J1 J2] [J3 J4]]. unfold seg_orientation, cross.
  unfold is_int, INT_MIN, INT_MAX in *.
  set (a1 := px (s_high s1) - px (s_low s1)). set (b1 := py (s_high s1) - py (s_low s1)).
  set (a2 := px (s_high s2) - px (s_low s2)). set (b2 := py (s_high s2) - py (s_low s2)).
  assert (A1 : - (2 ^ 32 - 1) <= a1 <= 2 ^ 32 - 1) by (unfold a1; lia). assert (B1 : - (2 ^ 32 - 1) <= b1 <= 2 ^ 32 - 1) by (unfold b1; lia).
  assert (A2 : - (2 ^ 32 - 1) <= a2 <= 2 ^ 32 - 1) by (unfold a2; lia). assert (B2 : - (2 ^ 32 - 1) <= b2 <= 2 ^ 32 - 1) by (unfold b2; lia).
  clearbody a1 b1 a2 b2. clear I1 I2 I3 I4 J1 J2 J3 J4.
  rewrite (chk64_ok a1), (chk64_ok b1), (chk64_ok a2), (chk64_ok b2) by lia. cbn [obind].
  assert (S : forall a b, (if negb (a =? 0) && negb (b =? 0) then (if xorb (a >? 0) (b >? 0) then -1 else 1) else 0) = Z.sgn (a * b)).
  { intros a b. rewrite Z.sgn_mul. destruct a, b; reflexivity. }
  rewrite !S.
  assert (N : forall a, (if a <? 0 then - a else a) = Z.abs a) by (intros a; destruct (a <? 0) eqn:E; lia).
  rewrite !N. rewrite (chk64_ok (Z.abs a1)), (chk64_ok (Z.abs b1)), (chk64_ok (Z.abs a2)), (chk64_ok (Z.abs b2)) by lia. cbn [obind].
  assert (U : forall a b, - (2 ^ 32 - 1) <= a <= 2 ^ 32 - 1 -> - (2 ^ 32 - 1) <= b <= 2 ^ 32 - 1 -> umul64 (Z.abs a) (Z.abs b) = Z.abs (a * b)).
  { intros a b HA HB. unfold umul64. rewrite <- Z.abs_mul. apply Z.mod_small. split; [lia|].
    rewrite Z.abs_mul. assert (Z.abs a * Z.abs b <= (2 ^ 32 - 1) * (2 ^ 32 - 1)) by (apply Z.mul_le_mono_nonneg; lia). lia. }
  rewrite (U a1 b2), (U b1 a2) by assumption. rewrite (Z.mul_comm a2 b1). clear S N U A1 A2 B1 B2.
  set (u := a1 * b2). set (v := b1 * a2). clearbody u v.
  destruct (Z.sgn u =? Z.sgn v) eqn:E; cbn [negb].
  - destruct (Z.abs u =? Z.abs v) eqn:E1; [f_equal; lia|].
    destruct (Z.abs u <? Z.abs v) eqn:E2; destruct (Z.sgn u =? 1) eqn:E3; cbn [xorb]; f_equal; lia.
  - destruct (Z.sgn u <? Z.sgn v) eqn:E1; f_equal; lia.
Qed.
Lemma side_high s p : cross s (mk_seg (s_high s) p) = side s p.
Proof. unfold side, cross; cbn [s_low s_high]. ring. Qed.
Lemma orientation_pt_eq s p : seg_int s -> pt_int p -> seg_orientation_pt s p = Ok (Z.sgn (side s p)).
Proof.
  intros S P. unfold seg_orientation_pt. rewrite orientation_eq; [rewrite side_high; reflexivity|exact S|].
  destruct S as [_ S]. split; [exact S|exact P].
Qed.

(* ---------- the points of a segment ---------- *)
Definition qside (s : seg) (q : Q * Q) : Q :=
  (inject_Z (px (s_high s) - px (s_low s)) * (snd q - inject_Z (py (s_low s))) -
   inject_Z (py (s_high s) - py (s_low s)) * (fst q - inject_Z (px (s_low s))))%Q.
(* the x and y ranges of a segment *)
Definition sx (s : seg) : ivl := mk_ivl (Z.min (px (s_low s)) (px (s_high s))) (Z.max (px (s_low s)) (px (s_high s))).
Definition sy (s : seg) : ivl := mk_ivl (Z.min (py (s_low s)) (py (s_high s))) (Z.max (py (s_low s)) (py (s_high s))).
Lemma make_minmax a b : ivl_make a b = mk_ivl (Z.min a b) (Z.max a b).
Proof. unfold ivl_make. destruct (a >? b) eqn:E; f_equal; lia. Qed.
Lemma box_x s : horizontal (seg_box s) = sx s.
Proof. unfold seg_box, r_set_points. rewrite horizontal_of. apply make_minmax. Qed.
Lemma box_y s : vertical (seg_box s) = sy s.
Proof. unfold seg_box, r_set_points. rewrite vertical_of. apply make_minmax. Qed.
Lemma in_minmax a b q : in_ivl true (mk_ivl (Z.min a b) (Z.max a b)) q <->
  ((inject_Z a <= q /\ q <= inject_Z b) \/ (inject_Z b <= q /\ q <= inject_Z a))%Q.
Proof.
  unfold in_ivl; cbn [lo hi]. destruct (Z.leb_spec a b) as [H|H].
  - rewrite Z.min_l, Z.max_r by lia. rewrite Zle_Qle in H. split; [intros; left; lra|intros [K|K]; lra].
  - rewrite Z.min_r, Z.max_l by lia. rewrite Zlt_Qlt in H. split; [intros; right; lra|intros [K|K]; lra].
Qed.
Lemma on_seg_iff s q : on_seg s q <-> (qside s q == 0)%Q /\ in_ivl true (sx s) (fst q) /\ in_ivl true (sy s) (snd q).
Proof.
  unfold on_seg, qside, sx, sy, seg_at, same_pt. rewrite !in_minmax.
  destruct s as [[x1 y1] [x2 y2]], q as [x y]; cbn [s_low s_high px py fst snd].
  set (X1 := inject_Z x1). set (X2 := inject_Z x2). set (Y1 := inject_Z y1). set (Y2 := inject_Z y2).
  assert (DX : (X1 == X2)%Q \/ ~ (X1 == X2)%Q) by (destruct (Qeq_dec X1 X2); auto).
  assert (DY : (Y1 == Y2)%Q \/ ~ (Y1 == Y2)%Q) by (destruct (Qeq_dec Y1 Y2); auto).
  assert (SX : (inject_Z (x2 - x1) == X2 - X1)%Q) by apply injZ_sub. assert (SY : (inject_Z (y2 - y1) == Y2 - Y1)%Q) by apply injZ_sub.
  clearbody X1 X2 Y1 Y2. split.
  - intros [t [[T1 T2] [E1 E2]]]. rewrite SX in E1. rewrite SY in E2. split; [rewrite SX, SY, <- E1, <- E2; ring|].
    split; [destruct (Qlt_le_dec X1 X2); [left|right]; nra|destruct (Qlt_le_dec Y1 Y2); [left|right]; nra].
  - intros [E [BX BY]]. rewrite SX, SY in E. destruct DX as [DX|DX].
    + destruct DY as [DY|DY].
      * exists 0%Q. split; [lra|]. rewrite SX, SY. split; lra.
      * exists ((y - Y1) / (Y2 - Y1))%Q. assert (NZ : ~ (Y2 - Y1 == 0)%Q) by (intros H; apply DY; lra). split.
        { destruct (Qlt_le_dec Y1 Y2) as [L|L].
          - split; [apply Qle_shift_div_l; lra|apply Qle_shift_div_r; lra].
          - setoid_replace ((y - Y1) / (Y2 - Y1))%Q with ((Y1 - y) / (Y1 - Y2))%Q by (field; split; lra).
            split; [apply Qle_shift_div_l; lra|apply Qle_shift_div_r; lra]. }
        rewrite SX, SY. split; [|field; exact NZ]. setoid_replace (X2 - X1)%Q with 0%Q by lra. lra.
    + exists ((x - X1) / (X2 - X1))%Q. assert (NZ : ~ (X2 - X1 == 0)%Q) by (intros H; apply DX; lra). split.
      { destruct (Qlt_le_dec X1 X2) as [L|L].
        - split; [apply Qle_shift_div_l; lra|apply Qle_shift_div_r; lra].
        - setoid_replace ((x - X1) / (X2 - X1))%Q with ((X1 - x) / (X1 - X2))%Q by (field; split; lra).
          split; [apply Qle_shift_div_l; lra|apply Qle_shift_div_r; lra]. }
      rewrite SX, SY. split; [field; exact NZ|].
      setoid_replace (Y1 + (x - X1) / (X2 - X1) * (Y2 - Y1))%Q with (Y1 + ((Y2 - Y1) * (x - X1)) / (X2 - X1))%Q by (field; exact NZ).
      setoid_replace ((Y2 - Y1) * (x - X1))%Q with ((X2 - X1) * (y - Y1))%Q by lra. field. exact NZ.
Qed.
Lemma qside_side s p : (qside s (qpt p) == inject_Z (side s p))%Q.
Proof. unfold qside, side, cross, qpt; cbn [s_low s_high fst snd]. rewrite <- !injZ_sub, <- !inject_Z_mult, <- injZ_sub. reflexivity. Qed.
Lemma on_seg_pt s p : on_seg s (qpt p) <-> side s p = 0 /\ contains_v (sx s) (px p) true = true /\ contains_v (sy s) (py p) true = true.
Proof.
  rewrite on_seg_iff, qside_side, !contains_v_spec. unfold qpt; cbn [fst snd]. change 0%Q with (inject_Z 0). rewrite injZ_eq. reflexivity.
Qed.
Lemma contains_pt_eq s p touch : seg_int s -> pt_int p -> exists b, seg_contains_pt s p touch = Ok b /\
  (b = true <-> on_seg s (qpt p) /\ (touch = false -> p <> s_low s /\ p <> s_high s)).
Proof.
  intros S P. unfold seg_contains_pt. rewrite orientation_pt_eq by assumption. cbn [obind]. fold (seg_box s).
  unfold r_contains_pt. rewrite box_x, box_y.
  destruct (Z.sgn (side s p) =? 0) eqn:E; cbn [negb].
  - destruct (contains_v (sx s) (px p) true && contains_v (sy s) (py p) true) eqn:E1; cbn [negb].
    + apply andb_true_iff in E1 as [E1 E2].
      assert (O : on_seg s (qpt p)) by (apply on_seg_pt; repeat split; [lia|assumption|assumption]).
      destruct touch; cbn [negb andb].
      * exists true. split; [reflexivity|]. split; [intros _; split; [exact O|discriminate]|reflexivity].
      * destruct (pt_eqb (s_low s) p || pt_eqb (s_high s) p) eqn:E3.
        -- exists false. split; [reflexivity|]. split; [discriminate|]. intros [_ H]. specialize (H eq_refl). apply orb_true_iff in E3. rewrite !pt_eqb_spec in E3. destruct H, E3; congruence.
        -- exists true. split; [reflexivity|]. split; [|reflexivity]. intros _. split; [exact O|]. intros _. apply orb_false_iff in E3 as [E3 E4].
           split; intros ->; [assert (F := proj2 (pt_eqb_spec (s_low s) (s_low s)) eq_refl)|assert (F := proj2 (pt_eqb_spec (s_high s) (s_high s)) eq_refl)]; congruence.
    + exists false. split; [reflexivity|]. split; [discriminate|]. intros [H _]. apply on_seg_pt in H as [_ [H1 H2]]. rewrite H1, H2 in E1. discriminate.
  - exists false. split; [reflexivity|]. split; [discriminate|]. intros [H _]. apply on_seg_pt in H as [H _]. lia.
Qed.
Lemma on_seg_low s : on_seg s (qpt (s_low s)).
Proof. exists 0%Q. split; [lra|]. unfold same_pt, seg_at, qpt; cbn [fst snd]. split; ring. Qed.
Lemma on_seg_high s : on_seg s (qpt (s_high s)).
Proof. exists 1%Q. split; [lra|]. unfold same_pt, seg_at, qpt; cbn [fst snd]. rewrite !injZ_sub. split; ring. Qed.
(* convexity *)
Lemma on_seg_convex s q1 q2 t : on_seg s q1 -> on_seg s q2 -> (0 <= t <= 1)%Q ->
  on_seg s (fst q1 + t * (fst q2 - fst q1), snd q1 + t * (snd q2 - snd q1))%Q.
Proof.
  intros [t1 [[A B] [C D]]] [t2 [[E F] [G H]]] [K L]. exists (t1 + t * (t2 - t1))%Q. split; [nra|].
  unfold same_pt, seg_at in *; cbn [fst snd] in *. rewrite <- C, <- D, <- G, <- H. split; ring.
Qed.
Lemma on_seg_wd s p q : same_pt p q -> on_seg s p -> on_seg s q.
Proof. intros [E1 E2] [t [T [A B]]]. exists t. split; [exact T|]. unfold same_pt in *. rewrite <- E1, <- E2. auto. Qed.
Lemma contains_seg_eq s1 s2 : seg_int s1 -> seg_int s2 -> exists b, seg_contains s1 s2 true = Ok b /\
  (b = true <-> forall q, on_seg s2 q -> on_seg s1 q).
Proof.
  intros S1 S2. pose proof S2 as [P1 P2]. unfold seg_contains.
  destruct (contains_pt_eq s1 (s_low s2) true S1 P1) as [b1 [E1 F1]]. destruct (contains_pt_eq s1 (s_high s2) true S1 P2) as [b2 [E2 F2]].
  rewrite E1. cbn [obind]. assert (G1 : b1 = true <-> on_seg s1 (qpt (s_low s2))) by (rewrite F1; split; [tauto|intros; split; [assumption|discriminate]]).
  assert (G2 : b2 = true <-> on_seg s1 (qpt (s_high s2))) by (rewrite F2; split; [tauto|intros; split; [assumption|discriminate]]).
  exists (b1 && b2). split; [destruct b1; [rewrite E2|]; reflexivity|]. rewrite andb_true_iff, G1, G2. split.
  - intros [A B] q [t [T [C D]]]. apply (on_seg_wd s1 (fst (qpt (s_low s2)) + t * (fst (qpt (s_high s2)) - fst (qpt (s_low s2))), snd (qpt (s_low s2)) + t * (snd (qpt (s_high s2)) - snd (qpt (s_low s2))))%Q).
    + unfold same_pt, seg_at, qpt in *; cbn [fst snd] in *. rewrite injZ_sub in C, D. auto.
    + apply on_seg_convex; assumption.
  - intros H. split; apply H; [apply on_seg_low|apply on_seg_high].
Qed.
Lemma contains_seg_open s1 s2 : seg_int s1 -> seg_int s2 -> exists b, seg_contains s1 s2 false = Ok b /\
  (b = true <-> forall q, on_seg s2 q -> on_seg s1 q /\ ~ seg_end s1 q).
Proof.
  intros S1 S2. pose proof S2 as [P1 P2]. unfold seg_contains.
  destruct (contains_pt_eq s1 (s_low s2) false S1 P1) as [b1 [E1 F1]]. destruct (contains_pt_eq s1 (s_high s2) false S1 P2) as [b2 [E2 F2]].
  rewrite E1. cbn [obind].
  assert (EQ : forall p q, same_pt (qpt p) (qpt q) <-> p = q).
  { intros [a b] [c d]. unfold same_pt, qpt; cbn [fst snd px py]. rewrite !injZ_eq. split; [intros [-> ->]; reflexivity|intros H; injection H as -> ->; auto]. }
  exists (b1 && b2). split; [destruct b1; [rewrite E2|]; reflexivity|]. rewrite andb_true_iff, F1, F2. split.
  - intros [[A A'] [B B']] q [t [T [C D]]]. specialize (A' eq_refl). specialize (B' eq_refl).
    assert (O : on_seg s1 q).
    { apply (on_seg_wd s1 (fst (qpt (s_low s2)) + t * (fst (qpt (s_high s2)) - fst (qpt (s_low s2))), snd (qpt (s_low s2)) + t * (snd (qpt (s_high s2)) - snd (qpt (s_low s2))))%Q).
      + unfold same_pt, seg_at, qpt in *; cbn [fst snd] in *. rewrite injZ_sub in C, D. auto.
      + apply on_seg_convex; assumption. }
    split; [exact O|]. intros En.
    (* parameters of the ends of s2 on s1 are strictly between 0 and 1 *)
    destruct A as [ta [TA [A1 A2]]], B as [tb [TB [B1 B2]]].
    assert (ST : forall u p, (0 <= u <= 1)%Q -> same_pt (seg_at s1 u) (qpt p) -> p <> s_low s1 -> p <> s_high s1 -> (0 < u < 1)%Q).
    { intros u p [U1 U2] [W1 W2] N1 N2. split.
      - destruct (Qlt_le_dec 0 u) as [|L]; [assumption|]. exfalso. apply N1, EQ. unfold same_pt, seg_at in *; cbn [fst snd qpt] in *. assert (Z0 : (u == 0)%Q) by lra. rewrite Z0 in W1, W2. split; lra.
      - destruct (Qlt_le_dec u 1) as [|L]; [assumption|]. exfalso. apply N2, EQ. unfold same_pt, seg_at in *; cbn [fst snd qpt] in *. assert (Z0 : (u == 1)%Q) by lra. rewrite Z0 in W1, W2. rewrite injZ_sub in W1, W2. split; lra. }
    pose proof (ST ta (s_low s2) TA (conj A1 A2) (proj1 A') (proj2 A')) as SA. pose proof (ST tb (s_high s2) TB (conj B1 B2) (proj1 B') (proj2 B')) as SB.
    assert (SU : (0 < ta + t * (tb - ta) < 1)%Q).
    { clear - SA SB T. destruct T as [T1 T2]. destruct (Qlt_le_dec ta tb) as [L|L].
      - assert (0 <= t * (tb - ta))%Q by nra. assert (0 <= (1 - t) * (tb - ta))%Q by nra. lra.
      - assert (0 <= t * (ta - tb))%Q by nra. assert (0 <= (1 - t) * (ta - tb))%Q by nra. lra. } set (u := (ta + t * (tb - ta))%Q) in *.
    assert (QU : same_pt (seg_at s1 u) q).
    { unfold same_pt, seg_at in *; cbn [fst snd qpt] in *. rewrite injZ_sub in C, D. unfold u. split.
      - rewrite <- C, <- A1, <- B1. ring. - rewrite <- D, <- A2, <- B2. ring. }
    (* s1 is not degenerate *)
    assert (ND : ~ (px (s_high s1) = px (s_low s1) /\ py (s_high s1) = py (s_low s1))).
    { intros [H1 H2]. apply (proj1 A'). apply EQ. unfold same_pt, seg_at in *; cbn [fst snd qpt] in *. rewrite H1, H2, !Z.sub_diag in *. change (inject_Z 0) with 0%Q in *. split; lra. }
    assert (HX : forall v, (0 < v < 1)%Q -> ~ (v * inject_Z (px (s_high s1) - px (s_low s1)) == 0 /\ v * inject_Z (py (s_high s1) - py (s_low s1)) == 0)%Q).
    { intros v V [W1 W2]. apply ND. split; apply Z.sub_move_0_r, injZ_eq; change (inject_Z 0) with 0%Q; nra. }
    destruct En as [[N1 N2]|[N1 N2]]; destruct QU as [QU1 QU2]; unfold seg_at in QU1, QU2; cbn [fst snd qpt] in *.
    + apply (HX u SU). split; lra.
    + assert (V : (0 < 1 - u < 1)%Q) by lra. apply (HX (1 - u)%Q V).
      pose proof (injZ_sub (px (s_high s1)) (px (s_low s1))). pose proof (injZ_sub (py (s_high s1)) (py (s_low s1))). split; lra.
  - intros H. destruct (H _ (on_seg_low s2)) as [H1 H2]. destruct (H _ (on_seg_high s2)) as [H3 H4].
    split; (split; [assumption|]); intros _; split; intros E.
    + apply H2. left. rewrite E. apply EQ. reflexivity.
    + apply H2. right. rewrite E. apply EQ. reflexivity.
    + apply H4. left. rewrite E. apply EQ. reflexivity.
    + apply H4. right. rewrite E. apply EQ. reflexivity.
Qed.
