(* Geometry of the circles of the Voronoi sweep, over the reals. *)
From Coq Require Import Reals Lra Psatz Nsatz.
Open Scope R_scope.

Lemma sq_eq_pos x y : x * x = y * y -> 0 <= x -> 0 <= y -> x = y.
Proof. intros H X Y. apply Rsqr_inj; assumption. Qed.
Lemma sqrt_of_sq x y : x * x = y -> 0 <= x -> sqrt y = x.
Proof. intros H X. subst y. apply sqrt_square, X. Qed.
Lemma sqrt_of_sq_neg x y : x * x = y -> x <= 0 -> sqrt y = - x.
Proof. intros H X. apply sqrt_of_sq; [rewrite <- H; ring|lra]. Qed.
Lemma sq_nonneg x : 0 <= x * x.
Proof. exact (Rle_0_sqr x). Qed.

(* ---------- three points ---------- *)
Section PPP.
Variables x1 y1 x2 y2 x3 y3 cx cy r : R.
Hypothesis H1 : (cx - x1) * (cx - x1) + (cy - y1) * (cy - y1) = r * r.
Hypothesis H2 : (cx - x2) * (cx - x2) + (cy - y2) * (cy - y2) = r * r.
Hypothesis H3 : (cx - x3) * (cx - x3) + (cy - y3) * (cy - y3) = r * r.
Let D := (x1 - x2) * (y2 - y3) - (x2 - x3) * (y1 - y2).
Let n1 := (x1 - x2) * (x1 + x2) + (y1 - y2) * (y1 + y2).
Let n2 := (x2 - x3) * (x2 + x3) + (y2 - y3) * (y2 + y3).
Lemma ppp_n1 : n1 = 2 * ((x1 - x2) * cx + (y1 - y2) * cy).
Proof. unfold n1. lra. Qed.
Lemma ppp_n2 : n2 = 2 * ((x2 - x3) * cx + (y2 - y3) * cy).
Proof. unfold n2. lra. Qed.
Lemma ppp_x : n1 * (y2 - y3) - n2 * (y1 - y2) = 2 * D * cx.
Proof. rewrite ppp_n1, ppp_n2. unfold D. ring. Qed.
Lemma ppp_y : n2 * (x1 - x2) - n1 * (x2 - x3) = 2 * D * cy.
Proof. rewrite ppp_n1, ppp_n2. unfold D. ring. Qed.
Lemma ppp_r : ((x1 - x2) * (x1 - x2) + (y1 - y2) * (y1 - y2)) * ((x2 - x3) * (x2 - x3) + (y2 - y3) * (y2 - y3))
   * ((x1 - x3) * (x1 - x3) + (y1 - y3) * (y1 - y3)) = (2 * D * r) * (2 * D * r).
Proof.
  unfold D.
  replace ((2 * ((x1 - x2) * (y2 - y3) - (x2 - x3) * (y1 - y2)) * r) * (2 * ((x1 - x2) * (y2 - y3) - (x2 - x3) * (y1 - y2)) * r))
    with (4 * ((x1 - x2) * (y2 - y3) - (x2 - x3) * (y1 - y2)) * ((x1 - x2) * (y2 - y3) - (x2 - x3) * (y1 - y2)) * (r * r)) by ring.
  set (u1 := x1 - cx) in *. set (v1 := y1 - cy) in *. set (u2 := x2 - cx) in *. set (v2 := y2 - cy) in *.
  set (u3 := x3 - cx) in *. set (v3 := y3 - cy) in *.
  assert (K1 : u1 * u1 + v1 * v1 = r * r) by (unfold u1, v1; lra).
  assert (K2 : u2 * u2 + v2 * v2 = r * r) by (unfold u2, v2; lra).
  assert (K3 : u3 * u3 + v3 * v3 = r * r) by (unfold u3, v3; lra).
  replace (x1 - x2) with (u1 - u2) by (unfold u1, u2; ring). replace (y1 - y2) with (v1 - v2) by (unfold v1, v2; ring).
  replace (x2 - x3) with (u2 - u3) by (unfold u2, u3; ring). replace (y2 - y3) with (v2 - v3) by (unfold v2, v3; ring).
  replace (x1 - x3) with (u1 - u3) by (unfold u1, u3; ring). replace (y1 - y3) with (v1 - v3) by (unfold v1, v3; ring).
  clearbody u1 v1 u2 v2 u3 v3. clear - K1 K2 K3. set (q := r * r) in *. clearbody q. nsatz.
Qed.
End PPP.

(* ---------- a line ---------- *)
(* the circle around c with radius r touches at t the line through p with
   direction (a, b) and is to its right *)
Lemma line_core a b x0 y0 cx cy tx ty r L :
  0 < r -> 0 < L -> a * a + b * b = L * L ->
  a * (ty - y0) - b * (tx - x0) = 0 -> a * (cx - tx) + b * (cy - ty) = 0 ->
  (cx - tx) * (cx - tx) + (cy - ty) * (cy - ty) = r * r ->
  a * (cy - y0) - b * (cx - x0) < 0 ->
  a * (cy - y0) - b * (cx - x0) = - (r * L) /\ tx = cx - r * b / L /\ ty = cy + r * a / L.
Proof.
  intros R0 L0 HL HT HD HR HS.
  set (k := a * (cy - y0) - b * (cx - x0)) in *.
  set (vx := cx - tx) in *. set (vy := cy - ty) in *.
  assert (Ek : k = a * vy - b * vx) by (unfold k, vx, vy; lra).
  assert (Q : k * k = (r * L) * (r * L)).
  { rewrite Ek. replace ((r * L) * (r * L)) with ((r * r) * (L * L)) by ring. rewrite <- HL, <- HR.
    replace ((a * vy - b * vx) * (a * vy - b * vx))
      with ((vx * vx + vy * vy) * (a * a + b * b) - (a * vx + b * vy) * (a * vx + b * vy)) by ring.
    rewrite HD. ring. }
  assert (K : - k = r * L).
  { apply sq_eq_pos; [rewrite <- Q; ring|lra|]. apply Rmult_le_pos; lra. }
  assert (Vx : vx * (L * L) = r * b * L).
  { rewrite <- HL. replace (vx * (a * a + b * b)) with (a * (a * vx + b * vy) - b * (a * vy - b * vx)) by ring.
    rewrite HD, <- Ek. replace k with (- (r * L)) by lra. ring. }
  assert (Vy : vy * (L * L) = - (r * a * L)).
  { rewrite <- HL. replace (vy * (a * a + b * b)) with (b * (a * vx + b * vy) + a * (a * vy - b * vx)) by ring.
    rewrite HD, <- Ek. replace k with (- (r * L)) by lra. ring. }
  split; [lra|]. split.
  - assert (E : vx = r * b / L) by (apply Rmult_eq_reg_r with (L * L); [rewrite Vx; field; lra|apply Rgt_not_eq, Rmult_lt_0_compat; lra]).
    rewrite <- E. unfold vx. ring.
  - assert (E : vy = - (r * a / L)) by (apply Rmult_eq_reg_r with (L * L); [rewrite Vy; field; lra|apply Rgt_not_eq, Rmult_lt_0_compat; lra]).
    replace (r * a / L) with (- vy) by (rewrite E; ring). unfold vy. ring.
Qed.
(* a point of the circle is on the same side of the line *)
Lemma line_side a b x0 y0 cx cy qx qy r L :
  0 < r -> 0 < L -> a * a + b * b = L * L ->
  (cx - qx) * (cx - qx) + (cy - qy) * (cy - qy) = r * r ->
  a * (cy - y0) - b * (cx - x0) = - (r * L) -> a * (qy - y0) - b * (qx - x0) <= 0.
Proof.
  intros R0 L0 HL HR HS.
  set (k := a * (qy - cy) - b * (qx - cx)).
  assert (E : a * (qy - y0) - b * (qx - x0) = k - r * L) by (unfold k; lra).
  rewrite E. assert (Q : k * k <= (r * L) * (r * L)).
  { replace ((r * L) * (r * L)) with ((r * r) * (L * L)) by ring. rewrite <- HL, <- HR. unfold k.
    replace (((cx - qx) * (cx - qx) + (cy - qy) * (cy - qy)) * (a * a + b * b))
      with ((a * (qy - cy) - b * (qx - cx)) * (a * (qy - cy) - b * (qx - cx)) + (a * (cx - qx) + b * (cy - qy)) * (a * (cx - qx) + b * (cy - qy))) by ring.
    pose proof (sq_nonneg (a * (cx - qx) + b * (cy - qy))). lra. }
  assert (0 <= r * L) by (apply Rmult_le_pos; lra).
  assert (k <= r * L) by (apply Rsqr_incr_0_var; [exact Q|assumption]). lra.
Qed.

(* ---------- two points and a line ---------- *)
Section PPS.
Variables x1 y1 x2 y2 X Y la lb L cx cy r : R.
Hypothesis R0 : 0 < r.
Hypothesis L0 : 0 < L.
Hypothesis HL : la * la + lb * lb = L * L.
Hypothesis H1 : (cx - x1) * (cx - x1) + (cy - y1) * (cy - y1) = r * r.
Hypothesis H2 : (cx - x2) * (cx - x2) + (cy - y2) * (cy - y2) = r * r.
Hypothesis HN : la * (cx - X) + lb * (cy - Y) = r * L.
Let vx := y2 - y1.
Let vy := x1 - x2.
Let teta := la * vx + lb * vy.
Let denom := vx * lb - vy * la.
Let A := la * (x1 - X) + lb * (y1 - Y).
Let B := la * (x2 - X) + lb * (y2 - Y).
(* the turn p1, p2, contact point *)
Let o := (x2 - x1) * (cy - r * lb / L - y1) - (y2 - y1) * (cx - r * la / L - x1).
Hypothesis HO : o <> 0.
Let w := if Rlt_dec o 0 then sqrt (4 * A * B * (teta * teta + denom * denom)) else - sqrt (4 * A * B * (teta * teta + denom * denom)).

Lemma pps_t : exists t, cx = (x1 + x2) / 2 + t * vx /\ cy = (y1 + y2) / 2 + t * vy /\
  r * L = (A + B) / 2 + t * teta /\ - (o * (L * L)) = t * (denom * denom) - (A + B) * teta / 2 /\
  denom * denom * (t * t) - (A + B) * teta * t + teta * teta / 4 - A * B = 0.
Proof.
  assert (V : vx * vx + vy * vy <> 0).
  { intros V. pose proof (sq_nonneg vx) as Vx. pose proof (sq_nonneg vy) as Vy.
    assert (vx * vx = 0) as Ex by lra. assert (vy * vy = 0) as Ey by lra.
    apply Rmult_integral in Ex. apply Rmult_integral in Ey. apply HO. unfold o.
    replace (x2 - x1) with (- vy) by (unfold vy; ring). fold vx. destruct Ex as [Ex|Ex], Ey as [Ey|Ey]; rewrite Ex, Ey; ring. }
  set (mx := cx - (x1 + x2) / 2). set (my := cy - (y1 + y2) / 2).
  assert (E : vy * mx - vx * my = 0) by (unfold vx, vy, mx, my; lra).
  set (t := (vx * mx + vy * my) / (vx * vx + vy * vy)).
  assert (Tx : mx = t * vx).
  { apply Rmult_eq_reg_r with (vx * vx + vy * vy); [|exact V]. unfold t.
    replace ((vx * mx + vy * my) / (vx * vx + vy * vy) * vx * (vx * vx + vy * vy)) with ((vx * mx + vy * my) * vx) by (field; exact V).
    replace (mx * (vx * vx + vy * vy)) with ((vx * mx + vy * my) * vx + vy * (vy * mx - vx * my)) by ring. rewrite E. ring. }
  assert (Ty : my = t * vy).
  { apply Rmult_eq_reg_r with (vx * vx + vy * vy); [|exact V]. unfold t.
    replace ((vx * mx + vy * my) / (vx * vx + vy * vy) * vy * (vx * vx + vy * vy)) with ((vx * mx + vy * my) * vy) by (field; exact V).
    replace (my * (vx * vx + vy * vy)) with ((vx * mx + vy * my) * vy - vx * (vy * mx - vx * my)) by ring. rewrite E. ring. }
  assert (Cx : cx = (x1 + x2) / 2 + t * vx) by (rewrite <- Tx; unfold mx; lra).
  assert (Cy : cy = (y1 + y2) / 2 + t * vy) by (rewrite <- Ty; unfold my; lra).
  exists t. split; [exact Cx|]. split; [exact Cy|].
  assert (RL : r * L = (A + B) / 2 + t * teta).
  { rewrite <- HN, Cx, Cy. unfold A, B, teta. lra. }
  assert (LG : (vx * vx + vy * vy) * (L * L) = teta * teta + denom * denom) by (rewrite <- HL; unfold teta, denom; ring).
  split; [exact RL|]. split.
  - unfold o. replace (x2 - x1) with (- vy) by (unfold vy; ring). fold vx.
    replace (- ((- vy * (cy - r * lb / L - y1) - vx * (cx - r * la / L - x1)) * (L * L)))
      with ((vx * (cx - x1) + vy * (cy - y1)) * (L * L) - (r * L) * teta) by (unfold teta; field; lra).
    replace (vx * (cx - x1) + vy * (cy - y1)) with (t * (vx * vx + vy * vy)).
    2: { rewrite Cx, Cy. unfold vx, vy. field. }
    rewrite Rmult_assoc, LG, RL. field.
  - assert (Q : (1 / 4 + t * t) * (teta * teta + denom * denom) = (r * L) * (r * L)).
    { rewrite <- LG. replace (r * L * (r * L)) with ((r * r) * (L * L)) by ring. rewrite <- H1, Cx, Cy. unfold vx, vy. field. }
    rewrite RL in Q.
    assert (ED : denom = B - A) by (unfold denom, A, B, vx, vy; ring).
    rewrite ED in *. clear - Q. lra.
Qed.
(* the quadratic equation and the choice of its solution *)
Lemma pps_w t : - (o * (L * L)) = t * (denom * denom) - (A + B) * teta / 2 ->
  denom * denom * (t * t) - (A + B) * teta * t + teta * teta / 4 - A * B = 0 ->
  2 * (denom * denom) * t - (A + B) * teta = w /\ w * w = 4 * A * B * (teta * teta + denom * denom) /\
  0 <= 4 * A * B * (teta * teta + denom * denom).
Proof.
  intros S Q. set (v := 2 * (denom * denom) * t - (A + B) * teta).
  assert (ED : denom = B - A) by (unfold denom, A, B, vx, vy; ring).
  assert (V2 : v * v = 4 * A * B * (teta * teta + denom * denom)).
  { unfold v. replace ((2 * (denom * denom) * t - (A + B) * teta) * (2 * (denom * denom) * t - (A + B) * teta))
      with (4 * (denom * denom) * (denom * denom * (t * t) - (A + B) * teta * t + teta * teta / 4 - A * B)
            + (4 * (denom * denom) * (A * B) - denom * denom * (teta * teta) + (A + B) * (A + B) * (teta * teta))) by field.
    rewrite Q. rewrite ED. ring. }
  assert (Sg : v = - 2 * o * (L * L)) by (unfold v; lra).
  assert (LL : 0 < L * L) by (apply Rmult_lt_0_compat; exact L0).
  assert (W : v = w).
  { unfold w. destruct (Rlt_dec o 0) as [N|N].
    - symmetry. apply sqrt_of_sq; [exact V2|]. rewrite Sg. apply Rmult_le_pos; lra.
    - rewrite (sqrt_of_sq_neg v _ V2); [ring|]. rewrite Sg. assert (0 <= o * (L * L)) by (apply Rmult_le_pos; lra). lra. }
  split; [exact W|]. split; [rewrite <- W; exact V2|]. rewrite <- V2. apply sq_nonneg.
Qed.
End PPS.

(* ---------- a point and two lines ---------- *)
(* the first line has the direction -(a1, b1) and the second (a2, b2); the circle
   is to the right of both *)
Section PSS.
Variables px py a1 b1 e1x e1y L1 a2 b2 e2x e2y L2 cx cy r : R.
Hypothesis R0 : 0 < r.
Hypothesis L10 : 0 < L1.
Hypothesis L20 : 0 < L2.
Hypothesis HL1 : a1 * a1 + b1 * b1 = L1 * L1.
Hypothesis HL2 : a2 * a2 + b2 * b2 = L2 * L2.
Hypothesis HP : (cx - px) * (cx - px) + (cy - py) * (cy - py) = r * r.
Hypothesis HN1 : a1 * (cy - e1y) - b1 * (cx - e1x) = r * L1.
Hypothesis HN2 : a2 * (cy - e2y) - b2 * (cx - e2x) = - (r * L2).
(* the turn: point, contact with the first line, contact with the second *)
Let t1x := cx + r * b1 / L1.
Let t1y := cy - r * a1 / L1.
Let t2x := cx - r * b2 / L2.
Let t2y := cy + r * a2 / L2.
Let o := (t1x - px) * (t2y - py) - (t1y - py) * (t2x - px).
Hypothesis HO : o <> 0.
Let O := a2 * b1 - a1 * b2.
Let dot := a1 * a2 + b1 * b2.
Let a := L1 * L2 + dot.
Let or1 := a1 * (py - e1y) - b1 * (px - e1x).
Let or2 := b2 * (px - e2x) - a2 * (py - e2y).
Let c1 := b1 * e1x - a1 * e1y.
Let c2 := a2 * e2y - b2 * e2x.
Let wx := a1 * L2 + a2 * L1.
Let wy := b1 * L2 + b2 * L1.

Lemma pss_lag : O * O = (L1 * L2 - dot) * a.
Proof. unfold a, O, dot. replace ((L1 * L2 - (a1 * a2 + b1 * b2)) * (L1 * L2 + (a1 * a2 + b1 * b2))) with ((L1 * L1) * (L2 * L2) - (a1 * a2 + b1 * b2) * (a1 * a2 + b1 * b2)) by ring. rewrite <- HL1, <- HL2. ring. Qed.
Lemma pss_ge : 0 <= a /\ 0 <= L1 * L2 - dot.
Proof.
  assert (P : 0 < L1 * L2) by (apply Rmult_lt_0_compat; assumption).
  assert (Q : dot * dot <= (L1 * L2) * (L1 * L2)).
  { pose proof pss_lag as G. unfold a in G. pose proof (sq_nonneg O). lra. }
  assert (dot <= L1 * L2) by (apply Rsqr_incr_0_var; [exact Q|lra]).
  assert (- dot <= L1 * L2) by (apply Rsqr_incr_0_var; [unfold Rsqr; lra|lra]).
  unfold a. lra.
Qed.

Section Cross.
Hypothesis NO : O <> 0.
Let ix := (a1 * c2 + a2 * c1) / O.
Let iy := (b1 * c2 + b2 * c1) / O.
Let t := - r / O.
Let b := (ix - px) * wx + (iy - py) * wy.
Lemma pss_a_pos : 0 < a.
Proof.
  destruct pss_ge as [A B]. destruct (Rle_lt_or_eq_dec 0 a A) as [P|P]; [exact P|exfalso].
  pose proof pss_lag as G. rewrite <- P, Rmult_0_r in G. apply Rmult_integral in G. tauto.
Qed.
(* r = t * cross (d1, d2) = - t * O *)
Lemma pss_c : cx = ix + t * wx /\ cy = iy + t * wy.
Proof.
  unfold ix, iy, t, wx, wy, c1, c2. split; apply (Rmult_eq_reg_r O); try exact NO.
  - replace (((a1 * (a2 * e2y - b2 * e2x) + a2 * (b1 * e1x - a1 * e1y)) / O + - r / O * (a1 * L2 + a2 * L1)) * O)
      with (a1 * (a2 * e2y - b2 * e2x - r * L2) + a2 * (b1 * e1x - a1 * e1y - r * L1)) by (field; exact NO).
    replace (a2 * e2y - b2 * e2x - r * L2) with (a2 * cy - b2 * cx) by lra.
    replace (b1 * e1x - a1 * e1y - r * L1) with (b1 * cx - a1 * cy) by lra. unfold O. ring.
  - replace (((b1 * (a2 * e2y - b2 * e2x) + b2 * (b1 * e1x - a1 * e1y)) / O + - r / O * (b1 * L2 + b2 * L1)) * O)
      with (b1 * (a2 * e2y - b2 * e2x - r * L2) + b2 * (b1 * e1x - a1 * e1y - r * L1)) by (field; exact NO).
    replace (a2 * e2y - b2 * e2x - r * L2) with (a2 * cy - b2 * cx) by lra.
    replace (b1 * e1x - a1 * e1y - r * L1) with (b1 * cx - a1 * cy) by lra. unfold O. ring.
Qed.
Lemma pss_ww : wx * wx + wy * wy - O * O = a * a.
Proof.
  rewrite pss_lag. unfold wx, wy, a.
  replace ((a1 * L2 + a2 * L1) * (a1 * L2 + a2 * L1) + (b1 * L2 + b2 * L1) * (b1 * L2 + b2 * L1))
    with ((a1 * a1 + b1 * b1) * (L2 * L2) + (a2 * a2 + b2 * b2) * (L1 * L1) + 2 * L1 * L2 * dot) by (unfold dot; ring).
  rewrite HL1, HL2. ring.
Qed.
Lemma pss_quad : a * a * (t * t) + 2 * b * t + ((ix - px) * (ix - px) + (iy - py) * (iy - py)) = 0.
Proof.
  rewrite <- pss_ww. destruct pss_c as [Cx Cy].
  assert (RT : t * t * (O * O) = r * r) by (unfold t; field; exact NO).
  pose proof HP as P. rewrite Cx, Cy in P. unfold b. lra.
Qed.
(* b * O = a * (or1 * L2 + or2 * L1) *)
Lemma pss_b : b * O = a * (or2 * L1 + or1 * L2).
Proof.
  unfold b, ix, iy.
  replace ((((a1 * c2 + a2 * c1) / O - px) * wx + ((b1 * c2 + b2 * c1) / O - py) * wy) * O)
    with ((a1 * c2 + a2 * c1 - O * px) * wx + (b1 * c2 + b2 * c1 - O * py) * wy) by (field; exact NO).
  replace (a1 * c2 + a2 * c1 - O * px) with (- (a1 * (- or2) - a2 * or1) + 0) by (unfold or1, or2, O, c1, c2; ring).
  replace (b1 * c2 + b2 * c1 - O * py) with (- (b1 * (- or2) - b2 * or1) + 0) by (unfold or1, or2, O, c1, c2; ring).
  unfold wx, wy, a.
  replace ((- (a1 * - or2 - a2 * or1) + 0) * (a1 * L2 + a2 * L1) + (- (b1 * - or2 - b2 * or1) + 0) * (b1 * L2 + b2 * L1))
    with (or2 * ((a1 * a1 + b1 * b1) * L2 + dot * L1) + or1 * (dot * L2 + (a2 * a2 + b2 * b2) * L1)) by (unfold dot; ring).
  rewrite HL1, HL2. ring.
Qed.
Lemma pss_disc : (a * a * t + b) * (a * a * t + b) = 2 * a * or1 * or2.
Proof.
  assert (E : (a * a * t + b) * (a * a * t + b) = b * b - a * a * ((ix - px) * (ix - px) + (iy - py) * (iy - py))).
  { pose proof pss_quad as Q. replace ((a * a * t + b) * (a * a * t + b)) with (a * a * (a * a * (t * t) + 2 * b * t) + b * b) by ring.
    replace (a * a * (t * t) + 2 * b * t) with (- ((ix - px) * (ix - px) + (iy - py) * (iy - py))) by lra. ring. }
  rewrite E. apply (Rmult_eq_reg_r (O * O)); [|intros Z; apply Rmult_integral in Z; tauto].
  replace ((b * b - a * a * ((ix - px) * (ix - px) + (iy - py) * (iy - py))) * (O * O))
    with ((b * O) * (b * O) - a * a * ((O * (ix - px)) * (O * (ix - px)) + (O * (iy - py)) * (O * (iy - py)))) by ring.
  rewrite pss_b.
  replace (O * (ix - px)) with (a1 * or2 + a2 * or1) by (unfold ix, or1, or2, c1, c2; replace (O * ((a1 * (a2 * e2y - b2 * e2x) + a2 * (b1 * e1x - a1 * e1y)) / O - px)) with ((a1 * (a2 * e2y - b2 * e2x) + a2 * (b1 * e1x - a1 * e1y)) - O * px) by (field; exact NO); unfold O; ring).
  replace (O * (iy - py)) with (b1 * or2 + b2 * or1) by (unfold iy, or1, or2, c1, c2; replace (O * ((b1 * (a2 * e2y - b2 * e2x) + b2 * (b1 * e1x - a1 * e1y)) / O - py)) with ((b1 * (a2 * e2y - b2 * e2x) + b2 * (b1 * e1x - a1 * e1y)) - O * py) by (field; exact NO); unfold O; ring).
  rewrite pss_lag.
  replace ((a1 * or2 + a2 * or1) * (a1 * or2 + a2 * or1) + (b1 * or2 + b2 * or1) * (b1 * or2 + b2 * or1))
    with ((a1 * a1 + b1 * b1) * (or2 * or2) + (a2 * a2 + b2 * b2) * (or1 * or1) + 2 * or1 * or2 * dot) by (unfold dot; ring).
  rewrite HL1, HL2. replace dot with (a - L1 * L2) by (unfold a; ring). ring.
Qed.
(* the turn decides the sign *)
Lemma pss_turn : o * (L1 * L2) = r * (a * a * t + b).
Proof.
  assert (B : b = a * (or2 * L1 + or1 * L2) / O) by (apply (Rmult_eq_reg_r O); [rewrite pss_b; field; exact NO|exact NO]).
  rewrite B. unfold t.
  replace (r * (a * a * (- r / O) + a * (or2 * L1 + or1 * L2) / O)) with (a * r * (- (a * r) + (or2 * L1 + or1 * L2)) / O) by (field; exact NO).
  apply (Rmult_eq_reg_r O); [|exact NO].
  replace (a * r * (- (a * r) + (or2 * L1 + or1 * L2)) / O * O) with (a * r * (- (a * r) + (or2 * L1 + or1 * L2))) by (field; exact NO).
  assert (E1 : or1 = r * L1 + (a1 * (py - cy) - b1 * (px - cx))) by (unfold or1; lra).
  assert (E2 : or2 = r * L2 - (a2 * (py - cy) - b2 * (px - cx))) by (unfold or2; lra).
  rewrite E1, E2. unfold o, t1x, t1y, t2x, t2y.
  set (u := px - cx). set (v := py - cy).
  assert (UV : u * u + v * v = r * r) by (unfold u, v; lra).
  replace (cx + r * b1 / L1 - px) with (r * b1 / L1 - u) by (unfold u; ring).
  replace (cy - r * a1 / L1 - py) with (- (r * a1 / L1) - v) by (unfold v; ring).
  replace (cx - r * b2 / L2 - px) with (- (r * b2 / L2) - u) by (unfold u; ring).
  replace (cy + r * a2 / L2 - py) with (r * a2 / L2 - v) by (unfold v; ring).
  replace (((r * b1 / L1 - u) * (r * a2 / L2 - v) - (- (r * a1 / L1) - v) * (- (r * b2 / L2) - u)) * (L1 * L2))
    with (r * (r * O - (b1 * v + a1 * u) * L2 - (a2 * u + b2 * v) * L1)) by (unfold O; field; lra).
  rewrite Rmult_assoc. replace (a * r * (- (a * r) + ((r * L2 - (a2 * v - b2 * u)) * L1 + (r * L1 + (a1 * v - b1 * u)) * L2)))
    with (r * (a * (- (a * r) + 2 * r * L1 * L2 + (b2 * u - a2 * v) * L1 + (a1 * v - b1 * u) * L2))) by ring.
  f_equal.
  replace (a * (- (a * r) + 2 * r * L1 * L2 + (b2 * u - a2 * v) * L1 + (a1 * v - b1 * u) * L2))
    with (r * (a * (L1 * L2 - dot)) + a * ((b2 * u - a2 * v) * L1 + (a1 * v - b1 * u) * L2)) by (unfold a; ring).
  replace (a * (L1 * L2 - dot)) with (O * O) by (rewrite pss_lag; ring).
  replace (a * ((b2 * u - a2 * v) * L1 + (a1 * v - b1 * u) * L2))
    with (- (((b1 * v + a1 * u) * L2 + (a2 * u + b2 * v) * L1) * O)); [ring|].
  unfold a.
  replace ((L1 * L2 + dot) * ((b2 * u - a2 * v) * L1 + (a1 * v - b1 * u) * L2))
    with ((L1 * L1) * (L2 * (b2 * u - a2 * v)) + (L2 * L2) * (L1 * (a1 * v - b1 * u)) + dot * ((b2 * u - a2 * v) * L1 + (a1 * v - b1 * u) * L2)) by ring.
  rewrite <- HL1, <- HL2. unfold O, dot. ring.
Qed.
Lemma pss_root : a * a * t + b = (if Rlt_dec o 0 then - sqrt (2 * a * or1 * or2) else sqrt (2 * a * or1 * or2)).
Proof.
  pose proof pss_disc as D. pose proof pss_turn as T.
  assert (P : 0 < L1 * L2) by (apply Rmult_lt_0_compat; assumption).
  destruct (Rlt_dec o 0) as [N|N].
  - rewrite (sqrt_of_sq_neg _ _ D); [ring|]. apply Rmult_le_reg_l with r; [exact R0|]. rewrite <- T, Rmult_0_r.
    assert (0 <= (- o) * (L1 * L2)) by (apply Rmult_le_pos; lra). lra.
  - rewrite (sqrt_of_sq _ _ D); [reflexivity|]. apply Rmult_le_reg_l with r; [exact R0|]. rewrite <- T, Rmult_0_r.
    apply Rmult_le_pos; lra.
Qed.
End Cross.

(* parallel lines: they have opposite directions *)
Section Parallel.
Hypothesis ZO : O = 0.
Lemma pss_par_dir : a2 * L1 = a1 * L2 /\ b2 * L1 = b1 * L2.
Proof.
  assert (E : (a2 * L1 - a1 * L2) * (a2 * L1 + a1 * L2) + (b2 * L1 - b1 * L2) * (b2 * L1 + b1 * L2) = 0).
  { replace ((a2 * L1 - a1 * L2) * (a2 * L1 + a1 * L2) + (b2 * L1 - b1 * L2) * (b2 * L1 + b1 * L2))
      with ((a2 * a2 + b2 * b2) * (L1 * L1) - (a1 * a1 + b1 * b1) * (L2 * L2)) by ring. rewrite HL1, HL2. ring. }
  destruct pss_ge as [A B]. pose proof pss_lag as G. rewrite ZO, Rmult_0_l in G. symmetry in G. apply Rmult_integral in G.
  destruct G as [G|G].
  - assert (S : (a2 * L1 - a1 * L2) * (a2 * L1 - a1 * L2) + (b2 * L1 - b1 * L2) * (b2 * L1 - b1 * L2) = 0).
    { replace ((a2 * L1 - a1 * L2) * (a2 * L1 - a1 * L2) + (b2 * L1 - b1 * L2) * (b2 * L1 - b1 * L2))
        with ((a2 * a2 + b2 * b2) * (L1 * L1) + (a1 * a1 + b1 * b1) * (L2 * L2) - 2 * L1 * L2 * dot) by (unfold dot; ring).
      rewrite HL1, HL2. replace dot with (L1 * L2) by lra. ring. }
    pose proof (sq_nonneg (a2 * L1 - a1 * L2)) as S1. pose proof (sq_nonneg (b2 * L1 - b1 * L2)) as S2.
    assert (Z1 : (a2 * L1 - a1 * L2) * (a2 * L1 - a1 * L2) = 0) by lra.
    assert (Z2 : (b2 * L1 - b1 * L2) * (b2 * L1 - b1 * L2) = 0) by lra.
    apply Rmult_integral in Z1. apply Rmult_integral in Z2. split; [destruct Z1; lra|destruct Z2; lra].
  - exfalso. apply HO. (* opposite directions: the contact points coincide *)
    assert (S : (a2 * L1 + a1 * L2) * (a2 * L1 + a1 * L2) + (b2 * L1 + b1 * L2) * (b2 * L1 + b1 * L2) = 0).
    { replace ((a2 * L1 + a1 * L2) * (a2 * L1 + a1 * L2) + (b2 * L1 + b1 * L2) * (b2 * L1 + b1 * L2))
        with ((a2 * a2 + b2 * b2) * (L1 * L1) + (a1 * a1 + b1 * b1) * (L2 * L2) + 2 * L1 * L2 * dot) by (unfold dot; ring).
      rewrite HL1, HL2. replace dot with (- (L1 * L2)) by (unfold a in G; lra). ring. }
    pose proof (sq_nonneg (a2 * L1 + a1 * L2)) as S1. pose proof (sq_nonneg (b2 * L1 + b1 * L2)) as S2.
    assert (Z1 : (a2 * L1 + a1 * L2) * (a2 * L1 + a1 * L2) = 0) by lra.
    assert (Z2 : (b2 * L1 + b1 * L2) * (b2 * L1 + b1 * L2) = 0) by lra.
    apply Rmult_integral in Z1. apply Rmult_integral in Z2.
    assert (E1 : a2 / L2 = - (a1 / L1)).
    { apply (Rmult_eq_reg_r (L1 * L2)); [|apply Rgt_not_eq, Rmult_lt_0_compat; assumption].
      replace (a2 / L2 * (L1 * L2)) with (a2 * L1) by (field; lra). replace (- (a1 / L1) * (L1 * L2)) with (- (a1 * L2)) by (field; lra). destruct Z1; lra. }
    assert (E2 : b2 / L2 = - (b1 / L1)).
    { apply (Rmult_eq_reg_r (L1 * L2)); [|apply Rgt_not_eq, Rmult_lt_0_compat; assumption].
      replace (b2 / L2 * (L1 * L2)) with (b2 * L1) by (field; lra). replace (- (b1 / L1) * (L1 * L2)) with (- (b1 * L2)) by (field; lra). destruct Z2; lra. }
    unfold o, t1x, t1y, t2x, t2y. unfold Rdiv in *. rewrite !Rmult_assoc, E1, E2. ring.
Qed.
End Parallel.
End PSS.

(* ---------- three lines ---------- *)
Section SSS.
Variables a1 b1 k1 L1 a2 b2 k2 L2 a3 b3 k3 L3 cx cy r : R.
Hypothesis R0 : 0 < r.
Hypothesis L10 : 0 < L1.
Hypothesis L20 : 0 < L2.
Hypothesis L30 : 0 < L3.
Hypothesis N1 : a1 * cy - b1 * cx + k1 = - (r * L1).
Hypothesis N2 : a2 * cy - b2 * cx + k2 = - (r * L2).
Hypothesis N3 : a3 * cy - b3 * cx + k3 = - (r * L3).
Let denom := L1 * (a2 * b3 - a3 * b2) + L2 * (a3 * b1 - a1 * b3) + L3 * (a1 * b2 - a2 * b1).
Let t1x := cx - r * b1 / L1. Let t1y := cy + r * a1 / L1.
Let t2x := cx - r * b2 / L2. Let t2y := cy + r * a2 / L2.
Let t3x := cx - r * b3 / L3. Let t3y := cy + r * a3 / L3.
Lemma sss_turn : ((t2x - t1x) * (t3y - t1y) - (t2y - t1y) * (t3x - t1x)) * (L1 * L2 * L3) = r * r * denom.
Proof. unfold t1x, t1y, t2x, t2y, t3x, t3y, denom. field. lra. Qed.
Lemma sss_x : L1 * (a2 * k3 - a3 * k2) + L2 * (a3 * k1 - a1 * k3) + L3 * (a1 * k2 - a2 * k1) = cx * denom.
Proof.
  replace k1 with (- (r * L1) - a1 * cy + b1 * cx) by lra. replace k2 with (- (r * L2) - a2 * cy + b2 * cx) by lra.
  replace k3 with (- (r * L3) - a3 * cy + b3 * cx) by lra. unfold denom. ring.
Qed.
Lemma sss_y : L1 * (b2 * k3 - b3 * k2) + L2 * (b3 * k1 - b1 * k3) + L3 * (b1 * k2 - b2 * k1) = cy * denom.
Proof.
  replace k1 with (- (r * L1) - a1 * cy + b1 * cx) by lra. replace k2 with (- (r * L2) - a2 * cy + b2 * cx) by lra.
  replace k3 with (- (r * L3) - a3 * cy + b3 * cx) by lra. unfold denom. ring.
Qed.
Lemma sss_r : b1 * (a2 * k3 - a3 * k2) + b2 * (a3 * k1 - a1 * k3) + b3 * (a1 * k2 - a2 * k1) = r * denom.
Proof.
  replace k1 with (- (r * L1) - a1 * cy + b1 * cx) by lra. replace k2 with (- (r * L2) - a2 * cy + b2 * cx) by lra.
  replace k3 with (- (r * L3) - a3 * cy + b3 * cx) by lra. unfold denom. ring.
Qed.
End SSS.
