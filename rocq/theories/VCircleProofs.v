(* The circle formation functors compute the circle. *)
From Coq Require Import Reals ZArith List Lia.
From Verif Require Import Base Units Outcome Scan90Spec Set90Spec GeoSpec Poly90Model VorSpec VorModel VDModel RobustSpec RobustModel
  VCircleSpec VCircleModel VCircleGeo P_Robust.
From Coq Require Import Lra.
Import ListNotations.
Open Scope R_scope.

(* ---------- arithmetic ---------- *)
Lemma fdiv_ok x y : y <> 0 -> fdiv x y = Some (x / y).
Proof. intros H. unfold fdiv, f_div. destruct (Req_EM_T y 0); [contradiction|reflexivity]. Qed.
Lemma fsqrt_ok x : 0 <= x -> fsqrt x = Some (sqrt x).
Proof. intros H. unfold fsqrt, f_sqrt, is_neg. destruct (Rlt_dec x 0); [exfalso; lra|reflexivity]. Qed.
Lemma within0 k v X : within_eps k 0 v X -> v = X.
Proof.
  unfold within_eps. rewrite Rmult_0_r, Rmult_0_l. intros W. pose proof (Rabs_pos (v - X)) as P.
  destruct (Req_dec (v - X) 0) as [Q|Q]; [lra|]. apply Rabs_no_R0 in Q. lra.
Qed.
Lemma rounds0 : rounds 0 (fun x => x).
Proof. intros x. rewrite Rminus_diag_eq by reflexivity. rewrite Rabs_R0. lra. Qed.
Lemma converts0 : converts 0 IZR.
Proof. intros x. rewrite Rminus_diag_eq by reflexivity. rewrite Rabs_R0. lra. Qed.
Lemma ev1_ok a b : (0 <= b)%Z -> ev1 [a] [b] = Some (IZR a * sqrt (IZR b)).
Proof.
  intros B. destruct (C39_eval1 0 (fun x => x) IZR (arr [a]) (arr [b]) (fun _ => 0%Z) (fun _ => 0%Z)) as [v [E [W _]]];
    [lra|apply rounds0|apply converts0| |].
  - intros i I. destruct i; [exact B|lia].
  - unfold ev1, mem_of. rewrite E. apply within0 in W. rewrite W. f_equal. cbn [sum_sqrt arr nth]. ring.
Qed.
Lemma ev2_ok a0 a1 b0 b1 : (0 <= b0)%Z -> (0 <= b1)%Z -> ev2 [a0; a1] [b0; b1] = Some (IZR a0 * sqrt (IZR b0) + IZR a1 * sqrt (IZR b1)).
Proof.
  intros B0 B1. destruct (C39_eval2 0 (fun x => x) IZR (arr [a0; a1]) (arr [b0; b1]) (fun _ => 0%Z) (fun _ => 0%Z)) as [v [E [W _]]];
    [lra|apply rounds0|apply converts0| |].
  - intros i I. destruct i as [|[|i]]; [exact B0|exact B1|lia].
  - unfold ev2, mem_of. rewrite E. apply within0 in W. rewrite W. f_equal. cbn [sum_sqrt arr nth]. ring.
Qed.
Lemma ev3_ok a0 a1 a2 b0 b1 b2 : (0 <= b0)%Z -> (0 <= b1)%Z -> (0 <= b2)%Z ->
  ev3 [a0; a1; a2] [b0; b1; b2] = Some (IZR a0 * sqrt (IZR b0) + IZR a1 * sqrt (IZR b1) + IZR a2 * sqrt (IZR b2)).
Proof.
  intros B0 B1 B2.
  destruct (C39_eval3 0 (fun x => x) IZR (arr [a0; a1; a2]) (arr [b0; b1; b2]) (fun _ => 0%Z) (fun _ => 0%Z)) as [v [m [E [_ [_ [W _]]]]]];
    [lra|apply rounds0|apply converts0| |].
  - intros i I. destruct i as [|[|[|i]]]; [exact B0|exact B1|exact B2|lia].
  - unfold ev3, mem_of. rewrite E. cbn [bind fst]. apply within0 in W. rewrite W. f_equal. cbn [sum_sqrt arr nth]. ring.
Qed.
Lemma ev4_ok a0 a1 a2 a3 b0 b1 b2 b3 : (0 <= b0)%Z -> (0 <= b1)%Z -> (0 <= b2)%Z -> (0 <= b3)%Z ->
  ev4 [a0; a1; a2; a3] [b0; b1; b2; b3] =
  Some (IZR a0 * sqrt (IZR b0) + IZR a1 * sqrt (IZR b1) + IZR a2 * sqrt (IZR b2) + IZR a3 * sqrt (IZR b3)).
Proof.
  intros B0 B1 B2 B3.
  destruct (C39_eval4 0 (fun x => x) IZR (arr [a0; a1; a2; a3]) (arr [b0; b1; b2; b3]) (fun _ => 0%Z) (fun _ => 0%Z)) as [v [m [E [_ [_ [W _]]]]]];
    [lra|apply rounds0|apply converts0| |].
  - intros i I. destruct i as [|[|[|[|i]]]]; [exact B0|exact B1|exact B2|exact B3|lia].
  - unfold ev4, mem_of. rewrite E. cbn [bind fst]. apply within0 in W. rewrite W. f_equal. cbn [sum_sqrt arr nth]. ring.
Qed.

(* ---------- reading the specification ---------- *)
Lemma rlen_sq u r : rlen u = r -> rx u * rx u + ry u * ry u = r * r.
Proof.
  unfold rlen, rdot. intros H. rewrite <- H. rewrite sqrt_sqrt; [reflexivity|].
  pose proof (sq_nonneg (rx u)). pose proof (sq_nonneg (ry u)). lra.
Qed.
Lemma point_core p c r t : meets_point p c r t ->
  t = of_pt p /\ (rx c - IZR (px p)) * (rx c - IZR (px p)) + (ry c - IZR (py p)) * (ry c - IZR (py p)) = r * r.
Proof. intros [T L]. split; [exact T|]. subst t. apply rlen_sq in L. exact L. Qed.
Lemma seg_core p q c r t : 0 < r -> meets_segment p q c r t ->
  let a := IZR (px q) - IZR (px p) in let b := IZR (py q) - IZR (py p) in
  exists L, 0 < L /\ a * a + b * b = L * L /\
    a * (ry c - IZR (py p)) - b * (rx c - IZR (px p)) = - (r * L) /\
    a * (ry c - IZR (py q)) - b * (rx c - IZR (px q)) = - (r * L) /\
    rx t = rx c - r * b / L /\ ry t = ry c + r * a / L.
Proof.
  intros R0 [NE [T [D [Len S]]]] a b. apply rlen_sq in Len. unfold rcross, rdot, rsub, of_pt in *. cbn [rx ry] in *. fold a b in T, D, S.
  assert (P : 0 < a * a + b * b).
  { destruct (Rle_lt_or_eq_dec 0 (a * a + b * b)) as [P|P]; [|exact P|].
    - pose proof (sq_nonneg a). pose proof (sq_nonneg b). lra.
    - exfalso. pose proof (sq_nonneg a) as A. pose proof (sq_nonneg b) as B.
      assert (a * a = 0) as A0 by lra. assert (b * b = 0) as B0 by lra. apply Rmult_integral in A0. apply Rmult_integral in B0.
      apply NE. f_equal; [unfold a in A0; destruct A0; lra|unfold b in B0; destruct B0; lra]. }
  exists (sqrt (a * a + b * b)). assert (Q : 0 < sqrt (a * a + b * b)) by (apply sqrt_lt_R0, P).
  assert (E : a * a + b * b = sqrt (a * a + b * b) * sqrt (a * a + b * b)) by (rewrite sqrt_sqrt; [reflexivity|lra]).
  split; [exact Q|]. split; [exact E|].
  destruct (line_core a b (IZR (px p)) (IZR (py p)) (rx c) (ry c) (rx t) (ry t) r _ R0 Q E T D Len S) as [K [Kx Ky]].
  split; [exact K|]. split; [|split; assumption]. unfold a, b in *. lra.
Qed.
Lemma meets_pt_inv s c r t : sev_segment s = false -> meets (e_p0 s) (e_p1 s) c r t -> meets_point (e_p0 s) c r t.
Proof.
  intros S [[_ M]|[N _]]; [exact M|]. exfalso. apply N. unfold sev_segment in S.
  destruct (e_p0 s) as [x y], (e_p1 s) as [x' y']. cbn [px py] in S. apply orb_false_iff in S. destruct S as [A B].
  apply negb_false_iff, Z.eqb_eq in A. apply negb_false_iff, Z.eqb_eq in B. subst. reflexivity.
Qed.
Lemma meets_seg_inv s c r t : sev_segment s = true -> meets (e_p0 s) (e_p1 s) c r t -> meets_segment (e_p0 s) (e_p1 s) c r t.
Proof.
  intros S [[E _]|[_ M]]; [|exact M]. exfalso. unfold sev_segment in S. rewrite E, !Z.eqb_refl in S. discriminate.
Qed.

Ltac izr := repeat (rewrite mult_IZR || rewrite plus_IZR || rewrite minus_IZR || rewrite opp_IZR).

(* ---------- three points ---------- *)
Lemma neg_if x : is_neg x = if Rlt_dec x 0 then true else false.
Proof. reflexivity. Qed.
Section PPPsec.
Variables s1 s2 s3 : sev.
Variables (c : rpt) (r : R) (t1 t2 t3 : rpt).
Hypothesis R0 : 0 < r.
Hypothesis M1 : meets_point (e_p0 s1) c r t1.
Hypothesis M2 : meets_point (e_p0 s2) c r t2.
Hypothesis M3 : meets_point (e_p0 s3) c r t3.
Hypothesis CW : clockwise t1 t2 t3.
Let x1 := IZR (sx0 s1). Let y1 := IZR (sy0 s1).
Let x2 := IZR (sx0 s2). Let y2 := IZR (sy0 s2).
Let x3 := IZR (sx0 s3). Let y3 := IZR (sy0 s3).
Let D := (x1 - x2) * (y2 - y3) - (x2 - x3) * (y1 - y2).
Lemma ppp_D : D < 0.
Proof.
  destruct (point_core _ _ _ _ M1) as [T1 _]. destruct (point_core _ _ _ _ M2) as [T2 _]. destruct (point_core _ _ _ _ M3) as [T3 _].
  revert CW. rewrite T1, T2, T3. unfold clockwise, rcross, rsub, of_pt. cbn [rx ry]. unfold D, x1, x2, x3, y1, y2, y3, sx0, sy0. lra.
Qed.
Lemma ppp_facts :
  ((x1 - x2) * (x1 + x2) + (y1 - y2) * (y1 + y2)) * (y2 - y3) - ((x2 - x3) * (x2 + x3) + (y2 - y3) * (y2 + y3)) * (y1 - y2) = 2 * D * rx c /\
  ((x2 - x3) * (x2 + x3) + (y2 - y3) * (y2 + y3)) * (x1 - x2) - ((x1 - x2) * (x1 + x2) + (y1 - y2) * (y1 + y2)) * (x2 - x3) = 2 * D * ry c /\
  ((x1 - x2) * (x1 - x2) + (y1 - y2) * (y1 - y2)) * ((x2 - x3) * (x2 - x3) + (y2 - y3) * (y2 - y3))
   * ((x1 - x3) * (x1 - x3) + (y1 - y3) * (y1 - y3)) = (2 * D * r) * (2 * D * r).
Proof.
  destruct (point_core _ _ _ _ M1) as [_ Q1]. destruct (point_core _ _ _ _ M2) as [_ Q2]. destruct (point_core _ _ _ _ M3) as [_ Q3].
  split; [|split].
  - exact (ppp_x x1 y1 x2 y2 x3 y3 (rx c) (ry c) r Q1 Q2 Q3).
  - exact (ppp_y x1 y1 x2 y2 x3 y3 (rx c) (ry c) r Q1 Q2 Q3).
  - exact (ppp_r x1 y1 x2 y2 x3 y3 (rx c) (ry c) r Q1 Q2 Q3).
Qed.
Lemma mp_ppp_ok e fx fy fl : exists e', mp_ppp s1 s2 s3 e fx fy fl = Some e' /\
  refreshed fx (ev_x e) (ev_x e') (rx c) /\ refreshed fy (ev_y e) (ev_y e') (ry c) /\ refreshed fl (ev_low e) (ev_low e') (rx c + r).
Proof.
  pose proof ppp_D as ND. destruct ppp_facts as [Fx [Fy Fr]].
  unfold mp_ppp. cbv zeta.
  izr. fold x1 y1 x2 y2 x3 y3.
  change ((x1 - x2) * (y2 - y3) - (x2 - x3) * (y1 - y2)) with D.
  rewrite fdiv_ok by lra. cbn [bind].
  rewrite Fx, Fy, Fr.
  assert (Ex : 2 * D * rx c * (1 / 2 / D) = rx c) by (field; lra).
  assert (Ey : 2 * D * ry c * (1 / 2 / D) = ry c) by (field; lra).
  assert (Sq : sqrt (2 * D * r * (2 * D * r)) = - (2 * D * r)).
  { apply sqrt_of_sq_neg; [ring|]. assert (0 <= (- D) * r) by (apply Rmult_le_pos; lra). lra. }
  rewrite fsqrt_ok by (apply sq_nonneg). rewrite Sq. cbn [bind]. unfold set_x, set_y, set_low. cbn [ev_x ev_y ev_low].
  rewrite Ex, Ey. rewrite !neg_if.
  assert (NI : 1 / 2 / D < 0).
  { unfold Rdiv. apply Ropp_lt_cancel. rewrite Ropp_0, Ropp_mult_distr_r. apply Rmult_lt_0_compat; [lra|].
    rewrite <- Rinv_opp. apply Rinv_0_lt_compat. lra. }
  destruct (Rlt_dec (1 / 2 / D) 0) as [_|Q]; [|contradiction]. cbn [negb].
  destruct (Rlt_dec (rx c) 0) as [Nx|Nx]; cbn [negb].
  - assert (NZ : 2 * D * rx c + - (2 * D * r) <> 0).
    { replace (2 * D * rx c + - (2 * D * r)) with (2 * ((- D) * (r - rx c))) by ring.
      apply Rgt_not_eq. apply Rmult_lt_0_compat; [lra|]. apply Rmult_lt_0_compat; lra. }
    rewrite fdiv_ok by exact NZ. cbn [bind].
    assert (El : (2 * D * rx c * (2 * D * rx c) - 2 * D * r * (2 * D * r)) * (1 / 2 / D) / (2 * D * rx c + - (2 * D * r)) = rx c + r).
    { field. split; [|lra]. intros Z. apply NZ. lra. }
    rewrite El.
    destruct fx, fy, fl; cbn [orb bind]; (eexists; split; [reflexivity|]; unfold refreshed; cbn [ev_x ev_y ev_low]; auto).
  - assert (El : rx c - - (2 * D * r) * (1 / 2 / D) = rx c + r) by (field; lra). rewrite El.
    destruct fx, fy, fl; cbn [orb bind]; (eexists; split; [reflexivity|]; unfold refreshed; cbn [ev_x ev_y ev_low]; auto).
Qed.
Lemma refresh_done f v w : refreshed f v w v -> w = v.
Proof. unfold refreshed. destruct f; [auto|intros [H|H]; exact H]. Qed.
Lemma lazy_ppp_ok fx fy fl : lazy_ppp s1 s2 s3 fx fy fl = Some (event_of c r).
Proof.
  pose proof ppp_D as ND. destruct ppp_facts as [Fx [Fy Fr]].
  unfold lazy_ppp, xprod. cbv zeta. izr. fold x1 y1 x2 y2 x3 y3.
  replace ((x1 - x2) * (y2 - y3) - (x2 - x3) * (y1 - y2)) with D by reflexivity.
  rewrite fdiv_ok by lra. cbn [bind]. rewrite Fr. rewrite fsqrt_ok by apply sq_nonneg. cbn [bind].
  rewrite (sqrt_of_sq_neg (2 * D * r)); [|reflexivity|assert (0 <= (- D) * r) by (apply Rmult_le_pos; lra); lra].
  assert (Ex : 0 + (x1 - x2) * (x1 + x2) * (y2 - y3) + (y1 - y2) * (y1 + y2) * (y2 - y3) - (x2 - x3) * (x2 + x3) * (y1 - y2)
    - (y2 - y3) * (y2 + y3) * (y1 - y2) = 2 * D * rx c) by (rewrite <- Fx; ring).
  assert (Ey : 0 + (x2 - x3) * (x2 + x3) * (x1 - x2) + (y2 - y3) * (y2 + y3) * (x1 - x2) - (x1 - x2) * (x1 + x2) * (x2 - x3)
    - (y1 - y2) * (y1 + y2) * (x2 - x3) = 2 * D * ry c) by (rewrite <- Fy; ring).
  rewrite Ex, Ey.
  replace (2 * D * rx c * (1 / 2 / D)) with (rx c) by (field; lra). replace (2 * D * ry c * (1 / 2 / D)) with (ry c) by (field; lra).
  replace ((2 * D * rx c - - (2 * D * r)) * (1 / 2 / D)) with (rx c + r) by (field; lra).
  destruct (fx || fy || fl); [|reflexivity].
  destruct (mp_ppp_ok (mk_cevent (rx c) (ry c) (rx c + r)) fx fy fl) as [e' [E [Hx [Hy Hl]]]]. rewrite E. cbn [ev_x ev_y ev_low] in *.
  apply refresh_done in Hx. apply refresh_done in Hy. apply refresh_done in Hl. destruct e' as [ex ey el]. cbn [ev_x ev_y ev_low] in *.
  subst. reflexivity.
Qed.
End PPPsec.

(* ---------- two points and a segment ---------- *)
Lemma zge z : 0 <= IZR z -> (0 <= z)%Z.
Proof. intros H. apply le_IZR. exact H. Qed.
Lemma zne z : IZR z <> 0 -> (z =? 0)%Z = false.
Proof. intros H. apply Z.eqb_neq. intros E. apply H. subst. reflexivity. Qed.
Lemma zeq z : IZR z = 0 -> (z =? 0)%Z = true.
Proof. intros H. apply Z.eqb_eq. apply eq_IZR. exact H. Qed.
Lemma sqrt_1' : sqrt (IZR 1) = 1.
Proof. exact sqrt_1. Qed.

Section PPSsec.
Variables s1 s2 s3 : sev.
Variable idx : Z.
Variables (c : rpt) (r : R) (t1 t2 t3 : rpt).
Hypothesis R0 : 0 < r.
Hypothesis M1 : meets_point (e_p0 s1) c r t1.
Hypothesis M2 : meets_point (e_p0 s2) c r t2.
Hypothesis M3 : meets_segment (e_p0 s3) (e_p1 s3) c r t3.
Hypothesis CW : if (idx =? 2)%Z then clockwise t1 t3 t2 else clockwise t1 t2 t3.
Let x1 := IZR (sx0 s1). Let y1 := IZR (sy0 s1).
Let x2 := IZR (sx0 s2). Let y2 := IZR (sy0 s2).
Let X0 := IZR (sx0 s3). Let Y0 := IZR (sy0 s3).
Let X := IZR (sx1 s3). Let Y := IZR (sy1 s3).
Let la := Y - Y0. Let lb := X0 - X.
Let vx := y2 - y1. Let vy := x1 - x2.
Let teta := la * vx + lb * vy.
Let denom := vx * lb - vy * la.
Let A := la * (x1 - X) + lb * (y1 - Y).
Let B := la * (x2 - X) + lb * (y2 - Y).
Lemma pps_codeA : la * (x1 - X) - lb * (Y - y1) = A.
Proof. unfold A. ring. Qed.
Lemma pps_codeB : la * (x2 - X) - lb * (Y - y2) = B.
Proof. unfold B. ring. Qed.
Let det := (teta * teta + denom * denom) * A * B * 4.
Lemma pps_pack : exists L t w, 0 < L /\ la * la + lb * lb = L * L /\
  rx c = (x1 + x2) / 2 + t * vx /\ ry c = (y1 + y2) / 2 + t * vy /\
  r * L = (A + B) / 2 + t * teta /\ la * (rx c - X0) + lb * (ry c - Y0) = r * L /\
  t * (denom * denom) - (A + B) * teta / 2 <> 0 /\
  denom * denom * (t * t) - (A + B) * teta * t + teta * teta / 4 - A * B = 0 /\
  2 * (denom * denom) * t - (A + B) * teta = w /\ 0 <= det /\
  (if (idx =? 2)%Z then - sqrt det else sqrt det) = w /\ denom = B - A.
Proof.
  destruct (point_core _ _ _ _ M1) as [T1 Q1]. destruct (point_core _ _ _ _ M2) as [T2 Q2].
  destruct (seg_core _ _ _ _ _ R0 M3) as [L [L0 [HL [N0 [N1 [Tx Ty]]]]]].
  assert (EL : la * la + lb * lb = L * L) by (rewrite <- HL; unfold la, lb, X, Y, X0, Y0, sx0, sx1, sy0, sy1; ring).
  assert (HN : la * (rx c - X) + lb * (ry c - Y) = r * L) by (unfold la, lb, X, Y, X0, Y0, sx0, sx1, sy0, sy1; lra).
  assert (HN0 : la * (rx c - X0) + lb * (ry c - Y0) = r * L) by (unfold la, lb, X, Y, X0, Y0, sx0, sx1, sy0, sy1; lra).
  set (o := (x2 - x1) * (ry c - r * lb / L - y1) - (y2 - y1) * (rx c - r * la / L - x1)).
  assert (Eo : o = rcross (rsub t2 t1) (rsub t3 t1)).
  { unfold rcross, rsub. cbn [rx ry]. rewrite Tx, Ty, T1, T2. unfold of_pt. cbn [rx ry]. unfold o, x1, x2, y1, y2, la, lb, X, Y, X0, Y0, sx0, sx1, sy0, sy1. field. lra. }
  assert (Eo' : - o = rcross (rsub t3 t1) (rsub t2 t1)) by (rewrite Eo; unfold rcross; ring).
  assert (HO : o <> 0 /\ (if (idx =? 2)%Z then 0 < o else o < 0)).
  { unfold clockwise in CW. destruct (idx =? 2)%Z; lra. }
  destruct HO as [HO SO].
  destruct (pps_t x1 y1 x2 y2 X Y la lb L (rx c) (ry c) r L0 EL Q1 Q2 HN HO) as [t [Cx [Cy [RL [K Q]]]]].
  destruct (pps_w x1 y1 x2 y2 X Y la lb L (rx c) (ry c) r L0 HO t K Q) as [W [W2 D0]].
  change (0 <= 4 * A * B * (teta * teta + denom * denom)) in D0.
  change (2 * (denom * denom) * t - (A + B) * teta =
    if Rlt_dec o 0 then sqrt (4 * A * B * (teta * teta + denom * denom)) else - sqrt (4 * A * B * (teta * teta + denom * denom))) in W.
  assert (Ed : 4 * A * B * (teta * teta + denom * denom) = det) by (unfold det; ring). rewrite Ed in D0, W.
  exists L, t, (2 * (denom * denom) * t - (A + B) * teta). split; [exact L0|]. split; [exact EL|]. split; [exact Cx|]. split; [exact Cy|].
  split; [exact RL|]. split; [exact HN0|]. split.
  { change (- (o * (L * L)) = t * (denom * denom) - (A + B) * teta / 2) in K. rewrite <- K. intros Z. assert (P : o * (L * L) = 0) by lra. apply Rmult_integral in P. destruct P as [P|P]; [contradiction|].
    apply Rmult_integral in P. lra. }
  split; [exact Q|]. split; [reflexivity|]. split; [exact D0|]. split.
  - rewrite W. destruct (idx =? 2)%Z; destruct (Rlt_dec o 0); lra.
  - unfold denom, A, B, vx, vy. ring.
Qed.
Lemma mp_pps_ok e fx fy fl : exists e', mp_pps s1 s2 s3 idx e fx fy fl = Some e' /\
  refreshed fx (ev_x e) (ev_x e') (rx c) /\ refreshed fy (ev_y e) (ev_y e') (ry c) /\ refreshed fl (ev_low e) (ev_low e') (rx c + r).
Proof.
  destruct pps_pack as [L [t [w [L0 [EL [Cx [Cy [RL [_ [NZ [Q [W [D0 [SD ED]]]]]]]]]]]]]].
  assert (SL : sqrt (la * la + lb * lb) = L) by (apply sqrt_of_sq; [symmetry; exact EL|lra]).
  assert (LL : 0 <= L * L) by apply sq_nonneg.
  unfold mp_pps. cbv zeta.
  destruct (Req_dec denom 0) as [Z0|NZ0].
  - rewrite zeq.
    2: { izr. exact Z0. }
    assert (NT : teta * (A + B) <> 0) by (intros Z; apply NZ; rewrite Z0; lra).
    assert (NT1 : teta <> 0) by (intros Z; apply NT; rewrite Z; ring).
    assert (NT2 : A + B <> 0) by (intros Z; apply NT; rewrite Z; ring).
    assert (Et : t = (teta * teta - (A + B) * (A + B)) / (4 * (teta * (A + B)))).
    { apply (Rmult_eq_reg_r (4 * (teta * (A + B)))); [|lra].
      replace ((teta * teta - (A + B) * (A + B)) / (4 * (teta * (A + B))) * (4 * (teta * (A + B)))) with (teta * teta - (A + B) * (A + B)) by (field; tauto).
      rewrite Z0 in Q, ED. replace B with A in * by lra. lra. }
    rewrite ev2_ok; [|apply zge; izr; fold X Y X0 Y0; fold la lb; rewrite EL; exact LL|lia].
    rewrite sqrt_1'. izr. fold x1 y1 x2 y2 X Y X0 Y0. fold la lb vx vy. fold teta. rewrite !pps_codeA, !pps_codeB.
    rewrite fdiv_ok by exact NT. cbn [bind]. rewrite SL, EL, fsqrt_ok by exact LL. rewrite <- EL, SL.
    assert (Ex : 1 / 4 * (teta * (A + B) * (x1 + x2) * 2 + (teta * teta - (A + B) * (A + B)) * vx) * (1 / (teta * (A + B))) = rx c).
    { rewrite Cx, Et. field. tauto. }
    assert (Ey : 1 / 4 * (teta * (A + B) * (y1 + y2) * 2 + (teta * teta - (A + B) * (A + B)) * vy) * (1 / (teta * (A + B))) = ry c).
    { rewrite Cy, Et. field. tauto. }
    rewrite Ex, Ey. cbn [bind]. rewrite fdiv_ok by lra. cbn [bind].
    match goal with |- context [set_low _ ?v] => assert (El : v = rx c + r) end.
    { replace r with (r * L / L) by (field; lra). rewrite RL, Cx, Et. field. repeat split; try tauto; lra. }
    rewrite El. unfold set_x, set_y, set_low.
    destruct fx, fy, fl; cbn [ev_x ev_y ev_low]; (eexists; split; [reflexivity|]; unfold refreshed; cbn [ev_x ev_y ev_low]; auto).
  - rewrite zne.
    2: { izr. exact NZ0. }
    rewrite !ev2_ok, ev4_ok; try lia; try (apply zge; izr; fold x1 y1 x2 y2 X Y X0 Y0; fold la lb vx vy; fold teta denom; rewrite ?pps_codeA, ?pps_codeB; fold det;
      rewrite ?EL; try exact D0; try (apply Rmult_le_pos; [exact D0|exact LL]); lra).
    assert (Sg1 : forall z v, IZR z = v -> IZR (if (idx =? 2)%Z then (- z)%Z else z) * sqrt det = v * w).
    { intros z v E. rewrite <- SD. destruct (idx =? 2)%Z; [rewrite opp_IZR|]; rewrite E; ring. }
    rewrite sqrt_1'. izr. fold x1 y1 x2 y2 X Y X0 Y0. fold la lb vx vy. fold teta denom. rewrite ?pps_codeA, ?pps_codeB. fold det.
    rewrite fdiv_ok by exact NZ0. cbn [bind]. rewrite EL, fsqrt_ok by exact LL. rewrite (sqrt_mult det (L * L)) by (assumption || exact LL).
    replace (1 * (L * L)) with (L * L) by ring. rewrite !(sqrt_square L) by lra. cbn [bind]. rewrite !fdiv_ok by lra.
    rewrite <- !Rmult_assoc.
    rewrite (Sg1 (sy0 s2 - sy0 s1)%Z vx), (Sg1 (sx0 s1 - sx0 s2)%Z vy) by (izr; reflexivity).
    rewrite (Sg1 ((sy1 s3 - sy0 s3) * (sy0 s2 - sy0 s1) + (sx0 s3 - sx1 s3) * (sx0 s1 - sx0 s2))%Z teta) by (izr; reflexivity).
    assert (Et : t = (w + (A + B) * teta) / (2 * (denom * denom))) by (rewrite <- W; field; exact NZ0).
    match goal with |- context [set_x e ?v] => assert (Ex : v = rx c) by (rewrite Cx, Et; field; exact NZ0) end.
    match goal with |- context [set_y _ ?v] => assert (Ey : v = ry c) by (rewrite Cy, Et; field; exact NZ0) end.
    rewrite Ex, Ey. cbn [bind].
    match goal with |- context [set_low _ ?v] => assert (El : v = rx c + r) end.
    { replace r with (r * L / L) by (field; lra). rewrite RL, Cx, Et. field. split; (exact NZ0 || lra). }
    rewrite El. unfold set_x, set_y, set_low.
    destruct fx, fy, fl; cbn [bind ev_x ev_y ev_low]; (eexists; split; [reflexivity|]; unfold refreshed; cbn [ev_x ev_y ev_low]; auto).
Qed.
Lemma lazy_pps_ok fx fy fl : lazy_pps s1 s2 s3 idx fx fy fl = Some (event_of c r).
Proof.
  destruct pps_pack as [L [t [w [L0 [EL [Cx [Cy [RL [HN0 [NZ [Q [W [D0 [SD ED]]]]]]]]]]]]]].
  assert (LL : 0 <= L * L) by apply sq_nonneg.
  unfold lazy_pps, xprod. cbv zeta. izr. fold x1 y1 x2 y2 X Y X0 Y0. fold la lb vx vy.
  assert (E1 : la * vx - lb * (x2 - x1) = teta) by (unfold teta, vx, vy; ring).
  assert (E2 : (Y0 - Y) * (X - x1) - lb * (Y - y1) = A) by (unfold A, la; ring).
  assert (E3 : (Y0 - Y) * (X - x2) - lb * (Y - y2) = B) by (unfold B, la; ring).
  assert (E4 : (y1 - y2) * (X - X0) - vy * la = denom) by (unfold denom, vx, lb; ring).
  rewrite E1, E2, E3, E4. rewrite EL, fsqrt_ok by exact LL. rewrite sqrt_square by lra. cbn [bind]. rewrite fdiv_ok by lra. cbn [bind].
  assert (T : (if Req_EM_T denom 0 then
      do u <- fdiv teta (8 * A); do v <- fdiv A (2 * teta); Some (0 + u - v)
    else
      do d <- fsqrt ((teta * teta + denom * denom) * A * B);
      do u <- fdiv d (denom * denom);
      do v <- fdiv (teta * (A + B)) (2 * denom * denom);
      Some ((if (idx =? 2)%Z then 0 - u else 0 + u) + v)) = Some t).
  { destruct (Req_EM_T denom 0) as [Z0|NZ0].
    - rewrite Z0 in *. assert (EB : B = A) by lra. rewrite EB in *.
      assert (NT : A * teta <> 0) by (intros Z; apply NZ; lra).
      assert (NT1 : teta <> 0) by (intros Z; apply NT; rewrite Z; ring).
      assert (NT2 : A <> 0) by (intros Z; apply NT; rewrite Z; ring).
      rewrite !fdiv_ok by lra. cbn [bind]. f_equal.
      apply (Rmult_eq_reg_r (8 * A * teta)); [|intros Z; apply NT; lra].
      replace ((0 + teta / (8 * A) - A / (2 * teta)) * (8 * A * teta)) with (teta * teta - 4 * (A * A)) by (field; tauto). lra.
    - assert (D4 : (teta * teta + denom * denom) * A * B = det / 4) by (unfold det; field).
      assert (ND : denom * denom <> 0) by (intros Z; apply Rmult_integral in Z; tauto).
      rewrite D4, fsqrt_ok by lra. cbn [bind]. rewrite !fdiv_ok by lra. cbn [bind]. f_equal.
      assert (S4 : sqrt (det / 4) = sqrt det / 2).
      { apply sqrt_of_sq; [|pose proof (sqrt_pos det); lra]. replace (sqrt det / 2 * (sqrt det / 2)) with (sqrt det * sqrt det / 4) by field.
        rewrite sqrt_sqrt by exact D0. reflexivity. }
      rewrite S4.
      replace (if (idx =? 2)%Z then 0 - sqrt det / 2 / (denom * denom) else 0 + sqrt det / 2 / (denom * denom)) with (w / 2 / (denom * denom)).
      2: { rewrite <- SD. destruct (idx =? 2)%Z; field; exact NZ0. }
      rewrite <- W. field. exact NZ0. }
  rewrite T. cbn [bind].
  assert (Ex : 0 + 1 / 2 * (x1 + x2) + vx * t = rx c) by (rewrite Cx; field).
  assert (Ey : 0 + 1 / 2 * (y1 + y2) + vy * t = ry c) by (rewrite Cy; field).
  rewrite Ex, Ey.
  assert (Er : 0 - la * X0 - lb * Y0 + la * rx c + lb * ry c = r * L) by lra.
  rewrite Er. rewrite neg_if. assert (0 < r * L) by (apply Rmult_lt_0_compat; assumption).
  destruct (Rlt_dec (r * L) 0) as [N|_]; [lra|].
  replace (rx c + r * L * (1 / L)) with (rx c + r) by (field; lra).
  destruct (fx || fy || fl); [|reflexivity].
  destruct (mp_pps_ok (mk_cevent (rx c) (ry c) (rx c + r)) fx fy fl) as [e' [E [Hx [Hy Hl]]]]. rewrite E. cbn [ev_x ev_y ev_low] in *.
  apply refresh_done in Hx. apply refresh_done in Hy. apply refresh_done in Hl. destruct e' as [ex ey el]. cbn [ev_x ev_y ev_low] in *.
  subst. reflexivity.
Qed.
End PPSsec.

(* ---------- three segments ---------- *)
Section SSSsec.
Variables s1 s2 s3 : sev.
Variables (c : rpt) (r : R) (t1 t2 t3 : rpt).
Hypothesis R0 : 0 < r.
Hypothesis M1 : meets_segment (e_p0 s1) (e_p1 s1) c r t1.
Hypothesis M2 : meets_segment (e_p0 s2) (e_p1 s2) c r t2.
Hypothesis M3 : meets_segment (e_p0 s3) (e_p1 s3) c r t3.
Hypothesis CW : clockwise t1 t2 t3.
Let a1 := IZR (sx1 s1) - IZR (sx0 s1). Let b1 := IZR (sy1 s1) - IZR (sy0 s1).
Let a2 := IZR (sx1 s2) - IZR (sx0 s2). Let b2 := IZR (sy1 s2) - IZR (sy0 s2).
Let a3 := IZR (sx1 s3) - IZR (sx0 s3). Let b3 := IZR (sy1 s3) - IZR (sy0 s3).
Let k1 := IZR (sx0 s1) * IZR (sy1 s1) - IZR (sy0 s1) * IZR (sx1 s1).
Let k2 := IZR (sx0 s2) * IZR (sy1 s2) - IZR (sy0 s2) * IZR (sx1 s2).
Let k3 := IZR (sx0 s3) * IZR (sy1 s3) - IZR (sy0 s3) * IZR (sx1 s3).
Lemma sss_pack : exists L1 L2 L3,
  (0 < L1 /\ 0 < L2 /\ 0 < L3) /\
  (a1 * a1 + b1 * b1 = L1 * L1 /\ a2 * a2 + b2 * b2 = L2 * L2 /\ a3 * a3 + b3 * b3 = L3 * L3) /\
  let denom := L1 * (a2 * b3 - a3 * b2) + L2 * (a3 * b1 - a1 * b3) + L3 * (a1 * b2 - a2 * b1) in
  denom <> 0 /\
  L1 * (a2 * k3 - a3 * k2) + L2 * (a3 * k1 - a1 * k3) + L3 * (a1 * k2 - a2 * k1) = rx c * denom /\
  L1 * (b2 * k3 - b3 * k2) + L2 * (b3 * k1 - b1 * k3) + L3 * (b1 * k2 - b2 * k1) = ry c * denom /\
  b1 * (a2 * k3 - a3 * k2) + b2 * (a3 * k1 - a1 * k3) + b3 * (a1 * k2 - a2 * k1) = r * denom.
Proof.
  destruct (seg_core _ _ _ _ _ R0 M1) as [L1 [L10 [HL1 [N1 [_ [T1x T1y]]]]]].
  destruct (seg_core _ _ _ _ _ R0 M2) as [L2 [L20 [HL2 [N2 [_ [T2x T2y]]]]]].
  destruct (seg_core _ _ _ _ _ R0 M3) as [L3 [L30 [HL3 [N3 [_ [T3x T3y]]]]]].
  exists L1, L2, L3. split; [auto|]. split; [auto|]. intros denom.
  assert (P1 : a1 * ry c - b1 * rx c + k1 = - (r * L1)) by (rewrite <- N1; unfold a1, b1, k1, sx0, sx1, sy0, sy1; ring).
  assert (P2 : a2 * ry c - b2 * rx c + k2 = - (r * L2)) by (rewrite <- N2; unfold a2, b2, k2, sx0, sx1, sy0, sy1; ring).
  assert (P3 : a3 * ry c - b3 * rx c + k3 = - (r * L3)) by (rewrite <- N3; unfold a3, b3, k3, sx0, sx1, sy0, sy1; ring).
  split.
  { intros Z. pose proof (sss_turn a1 b1 L1 a2 b2 L2 a3 b3 L3 (rx c) (ry c) r L10 L20 L30) as T. fold denom in T. rewrite Z, Rmult_0_r in T.
    unfold clockwise, rcross, rsub in CW. cbn [rx ry] in CW. rewrite T1x, T1y, T2x, T2y, T3x, T3y in CW.
    apply Rmult_integral in T. destruct T as [T|T].
    - change (IZR (px (e_p1 s1)) - IZR (px (e_p0 s1))) with a1 in CW. change (IZR (py (e_p1 s1)) - IZR (py (e_p0 s1))) with b1 in CW.
      change (IZR (px (e_p1 s2)) - IZR (px (e_p0 s2))) with a2 in CW. change (IZR (py (e_p1 s2)) - IZR (py (e_p0 s2))) with b2 in CW.
      change (IZR (px (e_p1 s3)) - IZR (px (e_p0 s3))) with a3 in CW. change (IZR (py (e_p1 s3)) - IZR (py (e_p0 s3))) with b3 in CW. lra.
    - assert (0 < L1 * L2 * L3) by (repeat apply Rmult_lt_0_compat; assumption). lra. }
  split; [|split].
  - exact (sss_x a1 b1 k1 L1 a2 b2 k2 L2 a3 b3 k3 L3 (rx c) (ry c) r P1 P2 P3).
  - exact (sss_y a1 b1 k1 L1 a2 b2 k2 L2 a3 b3 k3 L3 (rx c) (ry c) r P1 P2 P3).
  - exact (sss_r a1 b1 k1 L1 a2 b2 k2 L2 a3 b3 k3 L3 (rx c) (ry c) r P1 P2 P3).
Qed.
Lemma mp_sss_ok e fx fy fl : exists e', mp_sss s1 s2 s3 e fx fy fl = Some e' /\
  refreshed fx (ev_x e) (ev_x e') (rx c) /\ refreshed fy (ev_y e) (ev_y e') (ry c) /\ refreshed fl (ev_low e) (ev_low e') (rx c + r).
Proof.
  destruct sss_pack as [L1 [L2 [L3 [[L10 [L20 L30]] [[HL1 [HL2 HL3]] P]]]]]. cbv zeta in P. destruct P as [ND [Fx [Fy Fr]]].
  set (denom := L1 * (a2 * b3 - a3 * b2) + L2 * (a3 * b1 - a1 * b3) + L3 * (a1 * b2 - a2 * b1)) in *.
  assert (G1 : 0 <= L1 * L1) by apply sq_nonneg. assert (G2 : 0 <= L2 * L2) by apply sq_nonneg. assert (G3 : 0 <= L3 * L3) by apply sq_nonneg.
  unfold mp_sss. cbv zeta. cbn [app].
  rewrite !ev3_ok, !ev4_ok; try lia; try (apply zge; izr; fold a1 b1 a2 b2 a3 b3; rewrite ?HL1, ?HL2, ?HL3; assumption).
  replace (if fl then _ else 0%Z) with (if fl then
     ((((sx1 s2 - sx0 s2) * (sx0 s3 * sy1 s3 - sy0 s3 * sx1 s3) - (sx1 s3 - sx0 s3) * (sx0 s2 * sy1 s2 - sy0 s2 * sx1 s2)) * (sy1 s1 - sy0 s1))
     + (((sx1 s3 - sx0 s3) * (sx0 s1 * sy1 s1 - sy0 s1 * sx1 s1) - (sx1 s1 - sx0 s1) * (sx0 s3 * sy1 s3 - sy0 s3 * sx1 s3)) * (sy1 s2 - sy0 s2))
     + (((sx1 s1 - sx0 s1) * (sx0 s2 * sy1 s2 - sy0 s2 * sx1 s2) - (sx1 s2 - sx0 s2) * (sx0 s1 * sy1 s1 - sy0 s1 * sx1 s1)) * (sy1 s3 - sy0 s3)))%Z else 0%Z).
  2: { destruct fl; [|reflexivity]. lia. }
  rewrite sqrt_1'. izr. fold a1 b1 a2 b2 a3 b3. fold k1 k2 k3. rewrite HL1, HL2, HL3, !sqrt_square by lra. cbn [bind].
  replace ((a2 * b3 - a3 * b2) * L1 + (a3 * b1 - a1 * b3) * L2 + (a1 * b2 - a2 * b1) * L3) with denom by (unfold denom; ring).
  replace ((b2 * k3 - b3 * k2) * L1 + (b3 * k1 - b1 * k3) * L2 + (b1 * k2 - b2 * k1) * L3) with (ry c * denom) by (rewrite <- Fy; ring).
  replace ((a2 * k3 - a3 * k2) * L1 + (a3 * k1 - a1 * k3) * L2 + (a1 * k2 - a2 * k1) * L3) with (rx c * denom) by (rewrite <- Fx; ring).
  rewrite !fdiv_ok by exact ND. cbn [bind].
  replace (rx c * denom / denom) with (rx c) by (field; exact ND). replace (ry c * denom / denom) with (ry c) by (field; exact ND).
  unfold set_x, set_y, set_low.
  destruct fl.
  - izr. fold a1 b1 a2 b2 a3 b3. fold k1 k2 k3.
    assert (El : (rx c * denom + ((a2 * k3 - a3 * k2) * b1 + (a3 * k1 - a1 * k3) * b2 + (a1 * k2 - a2 * k1) * b3) * 1) / denom = rx c + r).
    { replace (((a2 * k3 - a3 * k2) * b1 + (a3 * k1 - a1 * k3) * b2 + (a1 * k2 - a2 * k1) * b3) * 1) with (r * denom) by (rewrite <- Fr; ring). field. exact ND. }
    rewrite El. destruct fx, fy; cbn [orb bind ev_x ev_y ev_low]; (eexists; split; [reflexivity|]; unfold refreshed; cbn [ev_x ev_y ev_low]; auto).
  - destruct fx, fy; cbn [orb bind ev_x ev_y ev_low]; (eexists; split; [reflexivity|]; unfold refreshed; cbn [ev_x ev_y ev_low]; auto).
Qed.
Lemma lazy_sss_ok fx fy fl : lazy_sss s1 s2 s3 fx fy fl = Some (event_of c r).
Proof.
  destruct sss_pack as [L1 [L2 [L3 [[L10 [L20 L30]] [[HL1 [HL2 HL3]] P]]]]]. cbv zeta in P. destruct P as [ND [Fx [Fy Fr]]].
  set (denom := L1 * (a2 * b3 - a3 * b2) + L2 * (a3 * b1 - a1 * b3) + L3 * (a1 * b2 - a2 * b1)) in *.
  unfold lazy_sss, xprod. cbv zeta. izr. fold a1 b1 a2 b2 a3 b3. fold k1 k2 k3.
  rewrite HL1, HL2, HL3, !fsqrt_ok by apply sq_nonneg. rewrite !sqrt_square by lra. cbn [bind].
  replace (0 + (a1 * b2 - b1 * a2) * L3 + (a2 * b3 - b2 * a3) * L1 + (a3 * b1 - b3 * a1) * L2) with denom by (unfold denom; ring).
  rewrite !fdiv_ok by exact ND. cbn [bind].
  match goal with |- context [mk_cevent (?u / denom) (?v / denom) (?w / denom)] =>
    assert (Ex : u = rx c * denom) by (rewrite <- Fx; ring); assert (Ey : v = ry c * denom) by (rewrite <- Fy; ring);
    assert (El : w = (rx c + r) * denom) by (rewrite Rmult_plus_distr_r, <- Fx, <- Fr; ring) end.
  rewrite El, Ex, Ey.
  replace (rx c * denom / denom) with (rx c) by (field; exact ND). replace (ry c * denom / denom) with (ry c) by (field; exact ND).
  replace ((rx c + r) * denom / denom) with (rx c + r) by (field; exact ND).
  destruct (fx || fy || fl); [|reflexivity].
  destruct (mp_sss_ok (mk_cevent (rx c) (ry c) (rx c + r)) fx fy fl) as [e' [E [Hx [Hy Hl]]]]. rewrite E. cbn [ev_x ev_y ev_low] in *.
  apply refresh_done in Hx. apply refresh_done in Hy. apply refresh_done in Hl. destruct e' as [ex ey el]. cbn [ev_x ev_y ev_low] in *.
  subst. reflexivity.
Qed.
End SSSsec.
