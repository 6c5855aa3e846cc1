(* The circle formation functors compute the circle of a point and two segments. *)
From Coq Require Import Reals ZArith List Lia.
From Verif Require Import Base Units Outcome Scan90Spec Set90Spec GeoSpec Poly90Model VorSpec VorModel VDModel RobustSpec RobustModel RobustProofs
  VCircleSpec VCircleModel VCircleGeo VCircleProofs.
From Coq Require Import Lra.
Import ListNotations.
Open Scope R_scope.

(* ---------- the evaluators of nested square roots ---------- *)
Lemma apart lh rh : same_side lh rh = false -> lh - rh <> 0.
Proof.
  intros S Z. assert (E : same_side lh rh = true); [|congruence]. apply same_side_spec.
  destruct (Rle_dec 0 lh); [left|right]; lra.
Qed.
Lemma pss3_ok A0 A1 A2 A3 B0 B1 : (0 <= B0)%Z -> (0 <= B1)%Z ->
  pss3 A0 A1 A2 A3 B0 B1 1 (B0 * B1) =
  Some (IZR A0 * sqrt (IZR B0) + IZR A1 * sqrt (IZR B1) + (IZR A2 + IZR A3 * (sqrt (IZR B0) * sqrt (IZR B1)))).
Proof.
  intros H0 H1. assert (P0 : 0 <= IZR B0) by (apply IZR_le; exact H0). assert (P1 : 0 <= IZR B1) by (apply IZR_le; exact H1).
  unfold pss3. rewrite !ev2_ok by lia. cbn [bind]. rewrite sqrt_1', mult_IZR, (sqrt_mult _ _ P0 P1). cbn [bind].
  pose proof (sqrt_sqrt _ P0) as Q0. pose proof (sqrt_sqrt _ P1) as Q1.
  set (u := sqrt (IZR B0)) in *. set (v := sqrt (IZR B1)) in *.
  rewrite Rmult_1_r.
  destruct (same_side (IZR A0 * u + IZR A1 * v) (IZR A2 + IZR A3 * (u * v))) eqn:S; [reflexivity|].
  apply apart in S. rewrite fdiv_ok by exact S. f_equal.
  apply (Rmult_eq_reg_r (IZR A0 * u + IZR A1 * v - (IZR A2 + IZR A3 * (u * v)))); [|exact S].
  unfold Rdiv. rewrite Rmult_assoc, Rinv_l by exact S. izr. rewrite <- Q0, <- Q1. ring.
Qed.
Lemma pss4_ok A0 A1 A2 A3 B0 B1 B2 B3 : (0 <= B0)%Z -> (0 <= B1)%Z -> (0 <= B3)%Z ->
  0 <= sqrt (IZR B0) * sqrt (IZR B1) + IZR B2 ->
  pss4 A0 A1 A2 A3 B0 B1 B2 B3 =
  Some (IZR A0 * sqrt (IZR B0) + IZR A1 * sqrt (IZR B1) + IZR A3
        + IZR A2 * (sqrt (IZR B3) * sqrt (sqrt (IZR B0) * sqrt (IZR B1) + IZR B2))).
Proof.
  intros H0 H1 H3 HN. assert (P0 : 0 <= IZR B0) by (apply IZR_le; exact H0). assert (P1 : 0 <= IZR B1) by (apply IZR_le; exact H1).
  assert (P3 : 0 <= IZR B3) by (apply IZR_le; exact H3). assert (H01 : (0 <= B0 * B1)%Z) by lia.
  unfold pss4. rewrite !ev2_ok, ev1_ok, ev3_ok by (assumption || lia). cbn [bind]. rewrite sqrt_1', mult_IZR, (sqrt_mult _ _ P0 P1). cbn [bind].
  pose proof (sqrt_sqrt _ P0) as Q0. pose proof (sqrt_sqrt _ P1) as Q1. pose proof (sqrt_sqrt _ P3) as Q3.
  rewrite pss3_ok by assumption.
  set (u := sqrt (IZR B0)) in *. set (v := sqrt (IZR B1)) in *. set (w := sqrt (IZR B3)) in *.
  rewrite !Rmult_1_l, !Rmult_1_r. pose proof (sqrt_sqrt _ HN) as QN. rewrite !(fsqrt_ok _ HN). cbn [bind]. set (n := sqrt (u * v + IZR B2)) in *.
  assert (EB2 : IZR B2 = n * n - u * v) by lra.
  destruct (A3 =? 0)%Z eqn:Z3.
  - apply Z.eqb_eq in Z3. subst A3.
    destruct (same_side (IZR A0 * u + IZR A1 * v) (IZR A2 * w * n)) eqn:S; [f_equal; ring|].
    apply apart in S. rewrite fdiv_ok by exact S. f_equal.
    apply (Rmult_eq_reg_r (IZR A0 * u + IZR A1 * v - IZR A2 * w * n)); [|exact S].
    unfold Rdiv. rewrite Rmult_assoc, Rinv_l by exact S. izr. rewrite EB2, <- Q0, <- Q1, <- Q3. ring.
  - destruct (same_side (IZR A0 * u + IZR A1 * v + IZR A3) (IZR A2 * w * n)) eqn:S; [f_equal; ring|].
    apply apart in S. cbn [bind]. rewrite fdiv_ok by exact S. f_equal.
    apply (Rmult_eq_reg_r (IZR A0 * u + IZR A1 * v + IZR A3 - IZR A2 * w * n)); [|exact S].
    unfold Rdiv. rewrite Rmult_assoc, Rinv_l by exact S. izr. rewrite EB2, <- Q0, <- Q1, <- Q3. ring.
Qed.

(* ---------- parallel segments ---------- *)
Section Par.
Variables px py a b s1x s1y s2x s2y L cx cy r : R.
Hypothesis R0 : 0 < r.
Hypothesis L0 : 0 < L.
Hypothesis HL : a * a + b * b = L * L.
Hypothesis HP : (cx - px) * (cx - px) + (cy - py) * (cy - py) = r * r.
Hypothesis H1 : a * (cy - s1y) - b * (cx - s1x) = r * L.
Hypothesis H2 : a * (cy - s2y) - b * (cx - s2x) = - (r * L).
Let dx := a * (py - s1y) - b * (px - s1x).
Let dy := b * (px - s2x) - a * (py - s2y).
Let v := a * (cx - px) + b * (cy - py).
Lemma par_c0 : b * (s2x - s1x) - a * (s2y - s1y) = - (2 * r * L).
Proof. lra. Qed.
Lemma par_disc : v * v = dx * dy.
Proof.
  assert (E1 : dx = r * L - (a * (cy - py) - b * (cx - px))) by (unfold dx; lra).
  assert (E2 : dy = r * L + (a * (cy - py) - b * (cx - px))) by (unfold dy; lra).
  rewrite E1, E2. unfold v.
  assert (F : (r * r) * (L * L) = ((cx - px) * (cx - px) + (cy - py) * (cy - py)) * (a * a + b * b)) by (rewrite HP, HL; reflexivity).
  replace ((r * L - (a * (cy - py) - b * (cx - px))) * (r * L + (a * (cy - py) - b * (cx - px))))
    with (r * r * (L * L) - (a * (cy - py) - b * (cx - px)) * (a * (cy - py) - b * (cx - px))) by ring. rewrite F. ring.
Qed.
Lemma par_x : 2 * (L * L) * cx = 2 * a * v + (b * b * (s1x + s2x) - a * b * (s1y + s2y - py * 2) + a * a * (px * 2)).
Proof.
  rewrite <- HL. unfold v.
  assert (E : b * (s1x + s2x) - a * (s1y + s2y) = b * (2 * cx) - a * (2 * cy)) by lra.
  replace (b * b * (s1x + s2x) - a * b * (s1y + s2y - py * 2) + a * a * (px * 2))
    with (b * (b * (s1x + s2x) - a * (s1y + s2y)) + 2 * a * b * py + 2 * a * a * px) by ring. rewrite E. ring.
Qed.
Lemma par_y : 2 * (L * L) * cy = 2 * b * v + (a * a * (s1y + s2y) - a * b * (s1x + s2x - px * 2) + b * b * (py * 2)).
Proof.
  rewrite <- HL. unfold v.
  assert (E : b * (s1x + s2x) - a * (s1y + s2y) = b * (2 * cx) - a * (2 * cy)) by lra.
  replace (a * a * (s1y + s2y) - a * b * (s1x + s2x - px * 2) + b * b * (py * 2))
    with (- a * (b * (s1x + s2x) - a * (s1y + s2y)) + 2 * a * b * px + 2 * b * b * py) by ring. rewrite E. ring.
Qed.
End Par.

(* ---------- crossing segments: the quantities of the exact functor ---------- *)
Section Crossing.
Variables px py a1 b1 e1x e1y L1 a2 b2 e2x e2y L2 cx cy r : R.
Hypothesis R0 : 0 < r.
Hypothesis L10 : 0 < L1.
Hypothesis L20 : 0 < L2.
Hypothesis HL1 : a1 * a1 + b1 * b1 = L1 * L1.
Hypothesis HL2 : a2 * a2 + b2 * b2 = L2 * L2.
Hypothesis HP : (cx - px) * (cx - px) + (cy - py) * (cy - py) = r * r.
Hypothesis HN1 : a1 * (cy - e1y) - b1 * (cx - e1x) = r * L1.
Hypothesis HN2 : a2 * (cy - e2y) - b2 * (cx - e2x) = - (r * L2).
Let O := a2 * b1 - a1 * b2.
Hypothesis NO : O <> 0.
Let a := L1 * L2 + (a1 * a2 + b1 * b2).
Let or1 := a1 * (py - e1y) - b1 * (px - e1x).
Let or2 := b2 * (px - e2x) - a2 * (py - e2y).
Let c1 := b1 * e1x - a1 * e1y.
Let c2 := a2 * e2y - b2 * e2x.
Let wx := a1 * L2 + a2 * L1.
Let wy := b1 * L2 + b2 * L1.
Let ixn := a1 * c2 + a2 * c1.
Let iyn := b1 * c2 + b2 * c1.
Let dx := ixn - O * px.
Let dy := iyn - O * py.
Let Q := dx * dx + dy * dy.
Let b := (ixn / O - px) * wx + (iyn / O - py) * wy.
Let v := a * a * (- r / O) + b.
Lemma cr_x : ixn - r * wx = O * cx.
Proof. destruct (pss_c a1 b1 e1x e1y L1 a2 b2 e2x e2y L2 cx cy r HN1 HN2 NO) as [C _]. rewrite C. unfold ixn, wx, c1, c2. fold O. field. exact NO. Qed.
Lemma cr_y : iyn - r * wy = O * cy.
Proof. destruct (pss_c a1 b1 e1x e1y L1 a2 b2 e2x e2y L2 cx cy r HN1 HN2 NO) as [_ C]. rewrite C. unfold iyn, wy, c1, c2. fold O. field. exact NO. Qed.
Lemma cr_b : dx * wx + dy * wy = O * b.
Proof. unfold b, dx, dy. field. exact NO. Qed.
(* temp = - (D . w) - O v *)
Lemma cr_temp : (- (dx * wx + dy * wy) - O * v) * r = - Q.
Proof.
  rewrite cr_b. pose proof (pss_quad px py a1 b1 e1x e1y L1 a2 b2 e2x e2y L2 cx cy r HL1 HL2 HP HN1 HN2 NO) as E.
  fold O in E. change (a1 * (a2 * e2y - b2 * e2x) + a2 * (b1 * e1x - a1 * e1y)) with ixn in E.
  change (b1 * (a2 * e2y - b2 * e2x) + b2 * (b1 * e1x - a1 * e1y)) with iyn in E.
  change ((ixn / O - px) * (a1 * L2 + a2 * L1) + (iyn / O - py) * (b1 * L2 + b2 * L1)) with b in E.
  change (L1 * L2 + (a1 * a2 + b1 * b2)) with a in E.
  assert (EQ : Q = O * O * ((ixn / O - px) * (ixn / O - px) + (iyn / O - py) * (iyn / O - py))) by (unfold Q, dx, dy; field; exact NO).
  rewrite EQ. replace ((ixn / O - px) * (ixn / O - px) + (iyn / O - py) * (iyn / O - py)) with (- (a * a * (- r / O * (- r / O)) + 2 * b * (- r / O))) by lra.
  unfold v. field. exact NO.
Qed.
Lemma cr_Q : 0 < Q.
Proof.
  assert (P : 0 <= Q) by (unfold Q; pose proof (sq_nonneg dx); pose proof (sq_nonneg dy); lra).
  destruct (Rle_lt_or_eq_dec _ _ P) as [H|H]; [exact H|exfalso].
  pose proof (sq_nonneg dx) as Sx. pose proof (sq_nonneg dy) as Sy.
  assert (Zx : dx * dx = 0) by (unfold Q in H; lra). assert (Zy : dy * dy = 0) by (unfold Q in H; lra).
  assert (Zx' : dx = 0) by (apply Rmult_integral in Zx; tauto). assert (Zy' : dy = 0) by (apply Rmult_integral in Zy; tauto).
  assert (Zb : b = 0). { apply (Rmult_eq_reg_l O); [|exact NO]. rewrite <- cr_b, Zx', Zy'. ring. }
  pose proof cr_temp as T. rewrite Zx', Zy', <- H in T. unfold v in T. rewrite Zb in T.
  assert (Pa : 0 < a) by exact (pss_a_pos a1 b1 L1 a2 b2 L2 L10 L20 HL1 HL2 NO).
  replace ((- (0 * wx + 0 * wy) - O * (a * a * (- r / O) + 0)) * r) with (a * a * (r * r)) in T by (field; exact NO).
  assert (0 < a * a * (r * r)) by (repeat apply Rmult_lt_0_compat; assumption). lra.
Qed.
Lemma cr_or : 0 <= or1 * or2.
Proof.
  pose proof (pss_disc px py a1 b1 e1x e1y L1 a2 b2 e2x e2y L2 cx cy r HL1 HL2 HP HN1 HN2 NO) as E.
  match type of E with ?x * ?x = _ => pose proof (sq_nonneg x) as S end. rewrite E in S.
  assert (Pa : 0 < a) by exact (pss_a_pos a1 b1 L1 a2 b2 L2 L10 L20 HL1 HL2 NO).
  change (0 <= 2 * a * or1 * or2) in S. apply (Rmult_le_reg_l (2 * a)); [lra|]. rewrite Rmult_0_r, <- Rmult_assoc. exact S.
Qed.
Lemma cr_D : a1 * dy - b1 * dx = - (O * or1) /\ a2 * dy - b2 * dx = O * or2.
Proof.
  assert (Ex : dx = a1 * or2 + a2 * or1) by (unfold dx, ixn, or1, or2, c1, c2, O; ring).
  assert (Ey : dy = b1 * or2 + b2 * or1) by (unfold dy, iyn, or1, or2, c1, c2, O; ring).
  rewrite Ex, Ey. unfold O. split; ring.
Qed.
(* the nested root *)
Lemma cr_nest : sqrt (2 * (O * O) * (or1 * or2)) * sqrt a = Rabs O * sqrt (2 * a * or1 * or2).
Proof.
  pose proof cr_or as H. assert (Pa : 0 < a) by exact (pss_a_pos a1 b1 L1 a2 b2 L2 L10 L20 HL1 HL2 NO).
  assert (0 <= 2 * (O * O) * (or1 * or2)).
  { apply Rmult_le_pos; [|exact H]. pose proof (sq_nonneg O). lra. }
  rewrite <- sqrt_mult by lra.
  replace (2 * (O * O) * (or1 * or2) * a) with ((O * O) * (2 * a * or1 * or2)) by ring.
  rewrite sqrt_mult; [|apply sq_nonneg|].
  - f_equal. apply sqrt_Rsqr_abs.
  - replace (2 * a * or1 * or2) with (2 * a * (or1 * or2)) by ring. apply Rmult_le_pos; [lra|exact H].
Qed.
End Crossing.

(* ---------- a point and two segments ---------- *)
Section PSSsec.
Variables s1 s2 s3 : sev.
Variable idx : Z.
Variables (c : rpt) (r : R) (t1 t2 t3 : rpt).
Hypothesis R0 : 0 < r.
Hypothesis M1 : meets_point (e_p0 s1) c r t1.
Hypothesis M2 : meets_segment (e_p0 s2) (e_p1 s2) c r t2.
Hypothesis M3 : meets_segment (e_p0 s3) (e_p1 s3) c r t3.
Hypothesis CW : if (idx =? 2)%Z then clockwise t2 t1 t3 else clockwise t1 t2 t3.
Let x := IZR (sx0 s1). Let y := IZR (sy0 s1).
Let E1x := IZR (px (e_p0 s2)). Let E1y := IZR (py (e_p0 s2)).
Let S1x := IZR (px (e_p1 s2)). Let S1y := IZR (py (e_p1 s2)).
Let S2x := IZR (px (e_p0 s3)). Let S2y := IZR (py (e_p0 s3)).
Let E2x := IZR (px (e_p1 s3)). Let E2y := IZR (py (e_p1 s3)).
Let a1 := E1x - S1x. Let b1 := E1y - S1y.
Let a2 := E2x - S2x. Let b2 := E2y - S2y.
Let O := a2 * b1 - a1 * b2.
Let sg := if (idx =? 2)%Z then 1 else -1.
Lemma pss_pack : exists L1 L2, 0 < L1 /\ 0 < L2 /\ a1 * a1 + b1 * b1 = L1 * L1 /\ a2 * a2 + b2 * b2 = L2 * L2 /\
  (rx c - x) * (rx c - x) + (ry c - y) * (ry c - y) = r * r /\
  a1 * (ry c - E1y) - b1 * (rx c - E1x) = r * L1 /\ a1 * (ry c - S1y) - b1 * (rx c - S1x) = r * L1 /\
  a2 * (ry c - E2y) - b2 * (rx c - E2x) = - (r * L2) /\ a2 * (ry c - S2y) - b2 * (rx c - S2x) = - (r * L2) /\
  let o := (rx c + r * b1 / L1 - x) * (ry c + r * a2 / L2 - y) - (ry c - r * a1 / L1 - y) * (rx c - r * b2 / L2 - x) in
  o <> 0 /\ (if (idx =? 2)%Z then 0 < o else o < 0).
Proof.
  destruct (point_core _ _ _ _ M1) as [T1 Q1].
  destruct (seg_core _ _ _ _ _ R0 M2) as [L1 [L10 [HL1 [N1 [N1' [T2x T2y]]]]]].
  destruct (seg_core _ _ _ _ _ R0 M3) as [L2 [L20 [HL2 [N2 [N2' [T3x T3y]]]]]].
  exists L1, L2. split; [exact L10|]. split; [exact L20|].
  split; [rewrite <- HL1; unfold a1, b1, E1x, E1y, S1x, S1y; ring|].
  split; [rewrite <- HL2; unfold a2, b2, E2x, E2y, S2x, S2y; ring|].
  split; [rewrite <- Q1; unfold x, y, sx0, sy0; ring|].
  split; [unfold a1, b1, E1x, E1y, S1x, S1y; lra|]. split; [unfold a1, b1, E1x, E1y, S1x, S1y; lra|].
  split; [unfold a2, b2, E2x, E2y, S2x, S2y; lra|]. split; [unfold a2, b2, E2x, E2y, S2x, S2y; lra|].
  intros o.
  assert (Eo : o = rcross (rsub t2 t1) (rsub t3 t1)).
  { unfold rcross, rsub. cbn [rx ry]. rewrite T2x, T2y, T3x, T3y, T1. unfold of_pt. cbn [rx ry].
    unfold o, a1, b1, a2, b2, E1x, E1y, S1x, S1y, E2x, E2y, S2x, S2y, x, y, sx0, sy0. field. lra. }
  assert (Eo' : - o = rcross (rsub t1 t2) (rsub t3 t2)) by (rewrite Eo; unfold rcross, rsub; cbn [rx ry]; ring).
  unfold clockwise in CW. rewrite <- Eo, <- Eo' in CW. destruct (idx =? 2)%Z; lra.
Qed.
Let px_ := x. Let py_ := y.
Let or1 := a1 * (y - E1y) - b1 * (x - E1x).
Let or2 := b2 * (x - E2x) - a2 * (y - E2y).
Let c1 := b1 * E1x - a1 * E1y.
Let c2 := a2 * E2y - b2 * E2x.
Let ixn := a1 * c2 + a2 * c1.
Let iyn := b1 * c2 + b2 * c1.
Let dx := ixn - O * x.
Let dy := iyn - O * y.
Let Q := dx * dx + dy * dy.
(* crossing lines *)
Lemma pss_cross_pack : O <> 0 -> exists L1 L2 t v, 0 < L1 /\ 0 < L2 /\ a1 * a1 + b1 * b1 = L1 * L1 /\ a2 * a2 + b2 * b2 = L2 * L2 /\
  let a := L1 * L2 + (a1 * a2 + b1 * b2) in
  let wx := a1 * L2 + a2 * L1 in let wy := b1 * L2 + b2 * L1 in
  let b := (ixn / O - x) * wx + (iyn / O - y) * wy in
  0 < a /\ t * O = - r /\ rx c = ixn / O + t * wx /\ ry c = iyn / O + t * wy /\
  0 <= or1 * or2 /\ 0 < Q /\ v = sg * sqrt (2 * a * or1 * or2) /\ a * a * t + b = v /\
  (- (dx * wx + dy * wy) - O * v) * r = - Q /\ O * O = (L1 * L2 - (a1 * a2 + b1 * b2)) * a /\
  sqrt (2 * (O * O) * (or1 * or2)) * sqrt a = Rabs O * sqrt (2 * a * or1 * or2) /\
  a1 * dy - b1 * dx = - (O * or1) /\ a2 * dy - b2 * dx = O * or2.
Proof.
  intros NO. destruct pss_pack as [L1 [L2 [L10 [L20 [HL1 [HL2 [HP [N1 [_ [N2 [_ P]]]]]]]]]]]. cbv zeta in P. destruct P as [HO Ho].
  exists L1, L2, (- r / O), (sg * sqrt (2 * (L1 * L2 + (a1 * a2 + b1 * b2)) * or1 * or2)).
  split; [exact L10|]. split; [exact L20|]. split; [exact HL1|]. split; [exact HL2|]. intros a wx wy b.
  destruct (pss_c a1 b1 E1x E1y L1 a2 b2 E2x E2y L2 (rx c) (ry c) r N1 N2 NO) as [Cx Cy].
  pose proof (pss_root x y a1 b1 E1x E1y L1 a2 b2 E2x E2y L2 (rx c) (ry c) r R0 L10 L20 HL1 HL2 HP N1 N2 HO NO) as RT.
  assert (Hv : a * a * (- r / O) + b = sg * sqrt (2 * a * or1 * or2)).
  { etransitivity; [exact RT|]. unfold sg. destruct (idx =? 2)%Z.
    - destruct (Rlt_dec _ 0) as [N|N]; [exfalso; lra|]. rewrite Rmult_1_l. reflexivity.
    - destruct (Rlt_dec _ 0) as [N|N]; [|exfalso; lra]. match goal with |- - ?s = -1 * ?u => change s with u; ring end. }
  split; [exact (pss_a_pos a1 b1 L1 a2 b2 L2 L10 L20 HL1 HL2 NO)|].
  split; [field; exact NO|]. split; [exact Cx|]. split; [exact Cy|].
  split; [exact (cr_or x y a1 b1 E1x E1y L1 a2 b2 E2x E2y L2 (rx c) (ry c) r L10 L20 HL1 HL2 HP N1 N2 NO)|].
  split; [exact (cr_Q x y a1 b1 E1x E1y L1 a2 b2 E2x E2y L2 (rx c) (ry c) r R0 L10 L20 HL1 HL2 HP N1 N2 NO)|].
  split; [reflexivity|]. split; [exact Hv|].
  split. { change (2 * (L1 * L2 + (a1 * a2 + b1 * b2)) * or1 * or2) with (2 * a * or1 * or2). rewrite <- Hv.
    exact (cr_temp x y a1 b1 E1x E1y L1 a2 b2 E2x E2y L2 (rx c) (ry c) r HL1 HL2 HP N1 N2 NO). }
  split; [exact (pss_lag a1 b1 L1 a2 b2 L2 HL1 HL2)|].
  split; [exact (cr_nest x y a1 b1 E1x E1y L1 a2 b2 E2x E2y L2 (rx c) (ry c) r L10 L20 HL1 HL2 HP N1 N2 NO)|].
  exact (cr_D x y a1 b1 E1x E1y a2 b2 E2x E2y).
Qed.
(* parallel lines *)
Let pdx := a1 * (y - S1y) - b1 * (x - S1x).
Let pdy := b1 * (x - S2x) - a1 * (y - S2y).
Lemma pss_par_pack : O = 0 -> exists L v, 0 < L /\ a1 * a1 + b1 * b1 = L * L /\
  b1 * (S2x - S1x) - a1 * (S2y - S1y) = - (2 * r * L) /\ 0 <= pdx * pdy /\ v = sg * sqrt (pdx * pdy) /\
  2 * (L * L) * rx c = 2 * a1 * v + (b1 * b1 * (S1x + S2x) - a1 * b1 * (S1y + S2y - y * 2) + a1 * a1 * (x * 2)) /\
  2 * (L * L) * ry c = 2 * b1 * v + (a1 * a1 * (S1y + S2y) - a1 * b1 * (S1x + S2x - x * 2) + b1 * b1 * (y * 2)).
Proof.
  intros ZO. destruct pss_pack as [L1 [L2 [L10 [L20 [HL1 [HL2 [HP [_ [N1 [_ [N2 P]]]]]]]]]]]. cbv zeta in P. destruct P as [HO Ho].
  destruct (pss_par_dir x y a1 b1 L1 a2 b2 L2 (rx c) (ry c) r L10 L20 HL1 HL2 HO ZO) as [Da Db].
  assert (N2' : a1 * (ry c - S2y) - b1 * (rx c - S2x) = - (r * L1)).
  { apply (Rmult_eq_reg_r L2); [|lra].
    replace ((a1 * (ry c - S2y) - b1 * (rx c - S2x)) * L2) with (a1 * L2 * (ry c - S2y) - b1 * L2 * (rx c - S2x)) by ring.
    rewrite <- Da, <- Db. replace (a2 * L1 * (ry c - S2y) - b2 * L1 * (rx c - S2x)) with (L1 * (a2 * (ry c - S2y) - b2 * (rx c - S2x))) by ring.
    rewrite N2. ring. }
  pose proof (par_disc x y a1 b1 S1x S1y S2x S2y L1 (rx c) (ry c) r HL1 HP N1 N2') as D.
  set (w := a1 * (rx c - x) + b1 * (ry c - y)) in *. change (w * w = pdx * pdy) in D.
  assert (Ew : (rx c + r * b1 / L1 - x) * (ry c + r * a2 / L2 - y) - (ry c - r * a1 / L1 - y) * (rx c - r * b2 / L2 - x) = 2 * (r / L1) * w).
  { assert (A2 : a2 = a1 * L2 / L1) by (rewrite <- Da; field; lra). assert (B2 : b2 = b1 * L2 / L1) by (rewrite <- Db; field; lra).
    assert (Ea : a2 / L2 = a1 / L1) by (rewrite A2; field; lra). assert (Eb : b2 / L2 = b1 / L1) by (rewrite B2; field; lra).
    replace (r * a2 / L2) with (r * (a2 / L2)) by (unfold Rdiv; ring). replace (r * b2 / L2) with (r * (b2 / L2)) by (unfold Rdiv; ring).
    rewrite Ea, Eb. unfold w. field. lra. }
  assert (RL : 0 < r / L1) by (apply Rdiv_lt_0_compat; assumption).
  exists L1, w. split; [exact L10|]. split; [exact HL1|].
  split; [exact (par_c0 a1 b1 S1x S1y S2x S2y L1 (rx c) (ry c) r N1 N2')|].
  split; [rewrite <- D; apply sq_nonneg|]. split.
  - rewrite Ew in Ho. unfold sg. destruct (idx =? 2)%Z.
    + rewrite (sqrt_of_sq _ _ D); [ring|]. apply Rnot_lt_le. intros N. assert (0 < (- w) * (r / L1)) by (apply Rmult_lt_0_compat; lra). lra.
    + rewrite (sqrt_of_sq_neg _ _ D); [ring|]. apply Rnot_lt_le. intros N. assert (0 < w * (r / L1)) by (apply Rmult_lt_0_compat; lra). lra.
  - split.
    + exact (par_x x y a1 b1 S1x S1y S2x S2y L1 (rx c) (ry c) r HL1 N1 N2').
    + exact (par_y x y a1 b1 S1x S1y S2x S2y L1 (rx c) (ry c) r HL1 N1 N2').
Qed.
(* the exact functor *)
Lemma mp_pss_ok e fx fy fl : exists e', mp_pss s1 s2 s3 idx e fx fy fl = Some e' /\
  refreshed fx (ev_x e) (ev_x e') (rx c) /\ refreshed fy (ev_y e) (ev_y e') (ry c) /\ refreshed fl (ev_low e) (ev_low e') (rx c + r).
Proof.
  unfold mp_pss. cbv zeta.
  set (ZO := ((px (e_p1 s3) - px (e_p0 s3)) * (py (e_p0 s2) - py (e_p1 s2)) - (px (e_p0 s2) - px (e_p1 s2)) * (py (e_p1 s3) - py (e_p0 s3)))%Z).
  assert (EO : IZR ZO = O) by (unfold ZO; izr; reflexivity).
  destruct (ZO =? 0)%Z eqn:EZ.
  - apply Z.eqb_eq in EZ. assert (O = 0) as H0 by (rewrite <- EO, EZ; reflexivity).
    destruct (pss_par_pack H0) as [L [v [L0 [HL [C0 [Hd [Hv [Hx Hy]]]]]]]].
    assert (GL : 0 < L * L) by (apply Rmult_lt_0_compat; assumption).
    assert (Nc : (b1 * (S2x - S1x) - a1 * (S2y - S1y)) < 0) by (rewrite C0; assert (0 < r * L) by (apply Rmult_lt_0_compat; assumption); lra).
    set (ZC := ((py (e_p0 s2) - py (e_p1 s2)) * (px (e_p0 s3) - px (e_p1 s2)) - (px (e_p0 s2) - px (e_p1 s2)) * (py (e_p0 s3) - py (e_p1 s2)))%Z).
    assert (EC : IZR ZC = - (2 * r * L)) by (rewrite <- C0; unfold ZC; izr; reflexivity).
    assert (LC : (ZC <? 0)%Z = true). { apply Z.ltb_lt. apply lt_IZR. rewrite EC, <- C0. exact Nc. }
    rewrite LC.
    rewrite !ev2_ok, !ev3_ok; try lia; try (apply zge; izr; fold x y E1x E1y S1x S1y S2x S2y; fold a1 b1; fold pdx pdy; rewrite ?HL; (exact Hd || lra)).
    rewrite sqrt_1', opp_IZR, EC.
    replace (IZR ((px (e_p0 s2) - px (e_p1 s2)) * (if (idx =? 2)%Z then 2 else -2))) with (2 * a1 * sg)
      by (rewrite mult_IZR, minus_IZR; fold E1x S1x; fold a1; unfold sg; destruct (idx =? 2)%Z; ring).
    replace (IZR ((py (e_p0 s2) - py (e_p1 s2)) * (if (idx =? 2)%Z then 2 else -2))) with (2 * b1 * sg)
      by (rewrite mult_IZR, minus_IZR; fold E1y S1y; fold b1; unfold sg; destruct (idx =? 2)%Z; ring).
    izr. fold x y E1x E1y S1x S1y S2x S2y. fold a1 b1. fold pdx pdy. rewrite HL, sqrt_square by lra. cbn [bind].
    replace (2 * b1 * sg * sqrt (pdx * pdy) + (a1 * a1 * (S1y + S2y) - a1 * b1 * (S1x + S2x - x * 2) + b1 * b1 * (y * 2)) * 1) with (2 * (L * L) * ry c)
      by (rewrite Hy, Hv; ring).
    replace (2 * a1 * sg * sqrt (pdx * pdy) + (b1 * b1 * (S1x + S2x) - a1 * b1 * (S1y + S2y - y * 2) + a1 * a1 * (x * 2)) * 1) with (2 * (L * L) * rx c)
      by (rewrite Hx, Hv; ring).
    rewrite !fdiv_ok by lra. cbn [bind].
    replace (2 * (L * L) * ry c / (2 * (L * L))) with (ry c) by (field; lra).
    replace (2 * (L * L) * rx c / (2 * (L * L))) with (rx c) by (field; lra).
    replace ((2 * (L * L) * rx c + - - (2 * r * L) * L) / (2 * (L * L))) with (rx c + r) by (field; lra).
    unfold set_x, set_y, set_low.
    destruct fx, fy, fl; cbn [orb bind ev_x ev_y ev_low]; (eexists; split; [reflexivity|]; unfold refreshed; cbn [ev_x ev_y ev_low]; auto).
  - assert (NO : O <> 0). { rewrite <- EO. intros Z. apply Z.eqb_neq in EZ. apply EZ. apply eq_IZR. exact Z. }
    destruct (pss_cross_pack NO) as [L1 [L2 [t [v [L10 [L20 [HL1 [HL2 P]]]]]]]]. cbv zeta in P.
    set (a := L1 * L2 + (a1 * a2 + b1 * b2)) in *. set (wx := a1 * L2 + a2 * L1) in *. set (wy := b1 * L2 + b2 * L1) in *.
    destruct P as [Pa [Ht [Cx [Cy [Hor [HQ [Hv [_ [HT [_ [Hn [D1 D2]]]]]]]]]]]].
    set (ZI := ((px (e_p0 s2) - px (e_p1 s2)) * ((px (e_p1 s3) - px (e_p0 s3)) * py (e_p1 s3) - (py (e_p1 s3) - py (e_p0 s3)) * px (e_p1 s3))
       + (px (e_p1 s3) - px (e_p0 s3)) * ((py (e_p0 s2) - py (e_p1 s2)) * px (e_p0 s2) - (px (e_p0 s2) - px (e_p1 s2)) * py (e_p0 s2)))%Z).
    set (ZJ := ((py (e_p0 s2) - py (e_p1 s2)) * ((px (e_p1 s3) - px (e_p0 s3)) * py (e_p1 s3) - (py (e_p1 s3) - py (e_p0 s3)) * px (e_p1 s3))
       + (py (e_p1 s3) - py (e_p0 s3)) * ((py (e_p0 s2) - py (e_p1 s2)) * px (e_p0 s2) - (px (e_p0 s2) - px (e_p1 s2)) * py (e_p0 s2)))%Z).
    assert (EI : IZR ZI = ixn) by (unfold ZI; izr; reflexivity).
    assert (EJ : IZR ZJ = iyn) by (unfold ZJ; izr; reflexivity).
    clearbody ZI ZJ.
    set (ZX := (ZI - ZO * sx0 s1)%Z). set (ZY := (ZJ - ZO * sy0 s1)%Z).
    assert (EX : IZR ZX = dx) by (unfold ZX; izr; rewrite EI, EO; reflexivity).
    assert (EY : IZR ZY = dy) by (unfold ZY; izr; rewrite EJ, EO; reflexivity).
    clearbody ZX ZY.
    assert (ND : ((ZX =? 0) && (ZY =? 0))%Z = false).
    { destruct (ZX =? 0)%Z eqn:Ex; [|reflexivity]. destruct (ZY =? 0)%Z eqn:Ey; [|reflexivity]. exfalso.
      apply Z.eqb_eq in Ex. apply Z.eqb_eq in Ey. assert (dx = 0) as Dx by (rewrite <- EX, Ex; reflexivity). assert (dy = 0) as Dy by (rewrite <- EY, Ey; reflexivity).
      unfold Q in HQ. rewrite Dx, Dy in HQ. lra. }
    rewrite ND.
    set (A1 := (px (e_p0 s2) - px (e_p1 s2))%Z). set (B1 := (py (e_p0 s2) - py (e_p1 s2))%Z).
    set (A2 := (px (e_p1 s3) - px (e_p0 s3))%Z). set (B2 := (py (e_p1 s3) - py (e_p0 s3))%Z).
    assert (EA1 : IZR A1 = a1) by (unfold A1; izr; reflexivity). assert (EB1 : IZR B1 = b1) by (unfold B1; izr; reflexivity).
    assert (EA2 : IZR A2 = a2) by (unfold A2; izr; reflexivity). assert (EB2 : IZR B2 = b2) by (unfold B2; izr; reflexivity).
    clearbody A1 B1 A2 B2.
    set (S := ((if (idx =? 2)%Z then 1 else -1) * (if (ZO <? 0)%Z then 1 else -1))%Z).
    assert (ES : IZR S * Rabs O = - (sg * O)).
    { unfold S, sg. rewrite mult_IZR. destruct (ZO <? 0)%Z eqn:LO.
      - apply Z.ltb_lt in LO. apply IZR_lt in LO. rewrite EO in LO. rewrite (Rabs_left _ LO). destruct (idx =? 2)%Z; ring.
      - apply Z.ltb_ge in LO. apply IZR_le in LO. rewrite EO in LO. rewrite (Rabs_right O) by lra. destruct (idx =? 2)%Z; ring. }
    clearbody S ZO.
    set (s := sqrt (2 * a * or1 * or2)) in *.
    assert (EV : forall u0 u1 u2 u3, pss4 u0 u1 u2 u3 (A1 * A1 + B1 * B1) (A2 * A2 + B2 * B2) (A1 * A2 + B1 * B2)
        ((A1 * ZY - B1 * ZX) * (A2 * ZY - B2 * ZX) * -2) = Some (IZR u0 * L1 + IZR u1 * L2 + IZR u3 + IZR u2 * (Rabs O * s))).
    { intros u0 u1 u2 u3.
      assert (F0 : sqrt (IZR (A1 * A1 + B1 * B1)) = L1) by (izr; rewrite EA1, EB1, HL1; apply sqrt_square; lra).
      assert (F1 : sqrt (IZR (A2 * A2 + B2 * B2)) = L2) by (izr; rewrite EA2, EB2, HL2; apply sqrt_square; lra).
      assert (F3 : IZR ((A1 * ZY - B1 * ZX) * (A2 * ZY - B2 * ZX) * -2) = 2 * (O * O) * (or1 * or2)).
      { izr. rewrite EA1, EB1, EA2, EB2, EX, EY, D1, D2. ring. }
      assert (F2 : sqrt (IZR (A1 * A1 + B1 * B1)) * sqrt (IZR (A2 * A2 + B2 * B2)) + IZR (A1 * A2 + B1 * B2) = a).
      { rewrite F0, F1. izr. rewrite EA1, EB1, EA2, EB2. reflexivity. }
      rewrite pss4_ok.
      - rewrite F2, F3, Hn, F0, F1. reflexivity.
      - apply zge. izr. rewrite EA1, EB1, HL1. apply sq_nonneg.
      - apply zge. izr. rewrite EA2, EB2, HL2. apply sq_nonneg.
      - apply zge. rewrite F3. apply Rmult_le_pos; [pose proof (sq_nonneg O); lra|exact Hor].
      - rewrite F2. lra. }
    rewrite !EV. cbn [bind]. izr. rewrite EA1, EB1, EA2, EB2, EX, EY, EI, EJ, EO.
    fold Q.
    set (temp := (a2 * - dx + b2 * - dy) * L1 + (a1 * - dx + b1 * - dy) * L2 + 0 + IZR S * (Rabs O * s)).
    assert (Etemp : temp = - (dx * wx + dy * wy) - O * v).
    { unfold temp. rewrite <- Rmult_assoc, ES, Hv. unfold wx, wy. ring. }
    rewrite <- Etemp in HT.
    assert (Nt : temp < 0). { apply Rnot_le_lt. intros G. assert (0 <= temp * r) by (apply Rmult_le_pos; lra). lra. }
    assert (EN : is_neg temp = true) by (unfold is_neg; destruct (Rlt_dec temp 0); [reflexivity|contradiction]).
    rewrite EN. cbv iota. rewrite EV. cbn [bind]. izr. rewrite EA1, EB1, EA2, EB2, EX, EY, EI, EO. fold Q.
    assert (Nd : temp * O <> 0) by (intros Z; apply Rmult_integral in Z; destruct Z; lra).
    assert (rO : t = - r / O) by (rewrite <- Ht; field; exact NO).
    assert (Fy : (b2 * Q - iyn * (dx * a2 + dy * b2)) * L1 + (b1 * Q - iyn * (dx * a1 + dy * b1)) * L2 + 0 + iyn * IZR S * (Rabs O * s) = temp * O * ry c).
    { transitivity (Q * wy + iyn * temp); [unfold temp, wy; ring|]. replace Q with (- (temp * r)) by lra. rewrite Cy, rO. field. exact NO. }
    assert (Fx : (a2 * Q - ixn * (dx * a2 + dy * b2)) * L1 + (a1 * Q - ixn * (dx * a1 + dy * b1)) * L2 + 0 + ixn * IZR S * (Rabs O * s) = temp * O * rx c).
    { transitivity (Q * wx + ixn * temp); [unfold temp, wx; ring|]. replace Q with (- (temp * r)) by lra. rewrite Cx, rO. field. exact NO. }
    assert (Fl : (a2 * Q - ixn * (dx * a2 + dy * b2)) * L1 + (a1 * Q - ixn * (dx * a1 + dy * b1)) * L2 + O * Q * -1 + ixn * IZR S * (Rabs O * s) = temp * O * (rx c + r)).
    { transitivity (temp * O * rx c - O * Q); [rewrite <- Fx; ring|]. replace Q with (- (temp * r)) by lra. ring. }
    rewrite Fx, Fy, Fl. rewrite !fdiv_ok by exact Nd. cbn [bind].
    replace (temp * O * rx c / (temp * O)) with (rx c) by (field; split; (exact NO || lra)).
    replace (temp * O * ry c / (temp * O)) with (ry c) by (field; split; (exact NO || lra)).
    replace (temp * O * (rx c + r) / (temp * O)) with (rx c + r) by (field; split; (exact NO || lra)).
    unfold set_x, set_y, set_low.
    destruct fx, fy, fl; cbn [orb bind ev_x ev_y ev_low]; (eexists; split; [reflexivity|]; unfold refreshed; cbn [ev_x ev_y ev_low]; auto).
Qed.
Lemma lazy_pss_ok fx fy fl : lazy_pss s1 s2 s3 idx fx fy fl = Some (event_of c r).
Proof.
  unfold lazy_pss, xprod. cbv zeta.
  match goal with |- context [Req_EM_T ?o 0] => assert (EO : o = O) by (izr; unfold O, a1, b1, a2, b2, E1x, E1y, S1x, S1y, E2x, E2y, S2x, S2y; ring); rewrite EO end.
  enough (E : forall q, q = Some (event_of c r) ->
    (do e <- q; (if fx || fy || fl then mp_pss s1 s2 s3 idx e fx fy fl else Some e)) = Some (event_of c r)).
  2: { intros q ->. cbn [bind]. destruct (fx || fy || fl); [|reflexivity].
    destruct (mp_pss_ok (event_of c r) fx fy fl) as [e' [E [Hx [Hy Hl]]]]. rewrite E. unfold event_of in *. cbn [ev_x ev_y ev_low] in *.
    apply refresh_done in Hx. apply refresh_done in Hy. apply refresh_done in Hl. destruct e' as [ex ey el]. cbn [ev_x ev_y ev_low] in *. subst. reflexivity. }
  apply E. clear E. izr. fold x y E1x E1y S1x S1y E2x E2y S2x S2y. fold a1 b1 a2 b2.
  destruct (Req_EM_T O 0) as [H0|NO].
  - destruct (pss_par_pack H0) as [L [v [L0 [HL [C0 [Hd [Hv [Hx Hy]]]]]]]].
    assert (GL : 0 < L * L) by (apply Rmult_lt_0_compat; assumption).
    rewrite (fsqrt_ok (_ * _)) by exact Hd. cbn [bind]. fold pdx pdy. rewrite HL, fdiv_ok by lra. cbn [bind]. rewrite fsqrt_ok by lra. rewrite sqrt_square by lra. cbn [bind].
    rewrite fdiv_ok by lra. cbn [bind]. rewrite C0.
    assert (EN : is_neg (- (2 * r * L)) = true). { unfold is_neg. destruct (Rlt_dec _ 0) as [_|N]; [reflexivity|]. exfalso. apply N. assert (0 < r * L) by (apply Rmult_lt_0_compat; assumption). lra. }
    rewrite EN. idtac.
    set (T := if (idx =? 2)%Z then _ else _).
    assert (ET : T = 0 - a1 * ((S1x + S2x) * (1 / 2) - x) - b1 * ((S1y + S2y) * (1 / 2) - y) + v).
    { unfold T. rewrite Hv. unfold sg. destruct (idx =? 2)%Z; ring. }
    assert (Fx : 0 + 1 / 2 * (S1x + S2x) + a1 * (T / (L * L)) = rx c).
    { apply (Rmult_eq_reg_l (2 * (L * L))); [|lra]. rewrite Hx, ET. transitivity ((S1x + S2x) * (L * L) + 2 * a1 * (0 - a1 * ((S1x + S2x) * (1 / 2) - x) - b1 * ((S1y + S2y) * (1 / 2) - y) + v)); [field; lra|].
      rewrite <- HL. field. }
    assert (Fy : 0 + 1 / 2 * (S1y + S2y) + b1 * (T / (L * L)) = ry c).
    { apply (Rmult_eq_reg_l (2 * (L * L))); [|lra]. rewrite Hy, ET. transitivity ((S1y + S2y) * (L * L) + 2 * b1 * (0 - a1 * ((S1x + S2x) * (1 / 2) - x) - b1 * ((S1y + S2y) * (1 / 2) - y) + v)); [field; lra|].
      rewrite <- HL. field. }
    rewrite Fx, Fy. unfold event_of. do 2 f_equal. field. lra.
  - destruct (pss_cross_pack NO) as [L1 [L2 [t [v [L10 [L20 [HL1 [HL2 P]]]]]]]]. cbv zeta in P.
    set (a := L1 * L2 + (a1 * a2 + b1 * b2)) in *. set (wx := a1 * L2 + a2 * L1) in *. set (wy := b1 * L2 + b2 * L1) in *.
    destruct P as [Pa [Ht [Cx [Cy [Hor [HQ [Hv [Hq [HT [Hl [Hn [D1 D2]]]]]]]]]]]].
    rewrite HL1, HL2. rewrite !fsqrt_ok by apply sq_nonneg. rewrite !sqrt_square by lra. cbn [bind].
    match goal with |- context [is_neg ?u] => assert (Ed : u = a1 * a2 + b1 * b2) by (unfold a1, b1, a2, b2; ring); rewrite Ed end.
    match goal with |- context [if negb (is_neg ?u) then ?p else ?q] => assert (Ea : (if negb (is_neg u) then p else q) = Some a) end.
    { unfold is_neg. destruct (Rlt_dec (a1 * a2 + b1 * b2) 0) as [N|N]; cbn [negb].
      - assert (0 < L1 * L2) by (apply Rmult_lt_0_compat; assumption). rewrite fdiv_ok by lra. f_equal. rewrite Hl. field. lra.
      - f_equal. unfold a. ring. }
    rewrite Ea. cbn [bind]. rewrite (fdiv_ok 1 O NO). cbn [bind].
    match goal with |- context [fsqrt ?u] => assert (Es : u = 2 * a * or1 * or2) by (unfold or1, or2; ring); rewrite Es end.
    rewrite fsqrt_ok by (replace (2 * a * or1 * or2) with (2 * a * (or1 * or2)) by ring; apply Rmult_le_pos; [lra|exact Hor]). cbn [bind].
    set (sq := sqrt (2 * a * or1 * or2)) in *.
    assert (Naa : a * a <> 0) by (apply Rgt_not_eq, Rmult_lt_0_compat; assumption).
    rewrite fdiv_ok by exact Naa. cbn [bind].
    match goal with |- context [mk_cevent (_ + ?u * _ + _)] => assert (Et : u = t) end.
    { apply (Rmult_eq_reg_r (a * a)); [|exact Naa]. unfold Rdiv. rewrite Rmult_assoc, Rinv_l, Rmult_1_r by exact Naa.
      transitivity (v - ((ixn / O - x) * wx + (iyn / O - y) * wy)); [|lra]. rewrite Hv. unfold sg.
      destruct (idx =? 2)%Z; unfold wx, wy, ixn, iyn, c1, c2, a1, b1, a2, b2; field; exact NO. }
    rewrite Et. unfold event_of.
    assert (Ex : 0 + a2 * (b1 * E1x - a1 * E1y) * (1 / O) + a1 * (a2 * E2y - b2 * E2x) * (1 / O) + t * (a1 * L2) + t * (a2 * L1) = rx c).
    { rewrite Cx. unfold wx, ixn, c1, c2. field. exact NO. }
    assert (Ey : 0 + b1 * (a2 * E2y - b2 * E2x) * (1 / O) + b2 * (b1 * E1x - a1 * E1y) * (1 / O) + t * (b1 * L2) + t * (b2 * L1) = ry c).
    { rewrite Cy. unfold wy, iyn, c1, c2. field. exact NO. }
    rewrite Ex, Ey. do 2 f_equal. unfold is_neg.
    destruct (Rlt_dec t 0) as [Nt|Nt], (Rlt_dec O 0) as [NO'|NO']; try lra.
    + exfalso. assert (0 < (- t) * (- O)) by (apply Rmult_lt_0_compat; lra). lra.
    + exfalso. assert (0 <= t * O) by (apply Rmult_le_pos; lra). lra.
Qed.
End PSSsec.
