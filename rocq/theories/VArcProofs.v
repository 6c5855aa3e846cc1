(* The distance predicate tells on which side of the breakpoint a point is. *)
From Coq Require Import Reals ZArith List Lia.
From Verif Require Import Base Units Outcome Scan90Spec Set90Spec GeoSpec Poly90Model VorSpec VorModel VDModel RobustSpec RobustModel
  VCircleSpec VCircleModel VCircleGeo VCircleProofs VCircleExist VArcSpec VArcModel.
From Coq Require Import Lra.
Open Scope R_scope.

Lemma ltb_iff x y : ltb x y = true <-> x < y.
Proof. unfold ltb. destruct (Rlt_dec x y); split; (auto || discriminate || contradiction). Qed.

(* ---------- a quadratic function that changes its sign from plus to minus ---------- *)
Section Quad.
Variables A B C b eps : R.
Let g (y : R) := A * (y * y) + B * y + C.
Hypothesis G0 : g b = 0.
Hypothesis E0 : 0 < eps.
Hypothesis Up : forall y, b < y < b + eps -> g y < 0.
Hypothesis Dn : forall y, b - eps < y < b -> 0 < g y.
Lemma quad_split y : g y = (y - b) * (A * (y + b) + B).
Proof. transitivity (g y - g b); [rewrite G0; ring|]. unfold g. ring. Qed.
Lemma quad_slope : 2 * A * b + B < 0.
Proof.
  pose proof (Up (b + eps / 2)) as U. pose proof (Dn (b - eps / 2)) as D.
  rewrite quad_split in U, D.
  assert (U' : (b + eps / 2 - b) * (A * (b + eps / 2 + b) + B) < 0) by (apply U; lra).
  assert (D' : 0 < (b - eps / 2 - b) * (A * (b - eps / 2 + b) + B)) by (apply D; lra).
  replace ((b + eps / 2 - b) * (A * (b + eps / 2 + b) + B)) with (eps / 2 * (2 * A * b + B + A * (eps / 2))) in U' by ring.
  replace ((b - eps / 2 - b) * (A * (b - eps / 2 + b) + B)) with (eps / 2 * - (2 * A * b + B - A * (eps / 2))) in D' by ring.
  apply Rnot_le_lt. intros S.
  assert (eps / 2 * (2 * A * b + B + A * (eps / 2)) - eps / 2 * - (2 * A * b + B - A * (eps / 2)) = eps * (2 * A * b + B)) by field.
  assert (0 <= eps * (2 * A * b + B)) by (apply Rmult_le_pos; lra). lra.
Qed.
Lemma mul_np x y : 0 < x -> y < 0 -> x * y < 0.
Proof. intros X Y. assert (0 < x * - y) by (apply Rmult_lt_0_compat; lra). lra. Qed.
Lemma mul_nn x y : x <= 0 -> y <= 0 -> 0 <= x * y.
Proof. intros X Y. assert (0 <= - x * - y) by (apply Rmult_le_pos; lra). lra. Qed.
Lemma mul_nn' x y : x < 0 -> y < 0 -> 0 < x * y.
Proof. intros X Y. assert (0 < - x * - y) by (apply Rmult_lt_0_compat; lra). lra. Qed.
(* opening downwards: the upper root *)
Lemma quad_down y : A <= 0 -> (b < y <-> 2 * A * y + B <= 0 /\ g y < 0).
Proof.
  intros NA. pose proof quad_slope as S. rewrite quad_split. split.
  - intros H. assert (0 <= - A * (y - b)) by (apply Rmult_le_pos; lra). split; [lra|]. apply mul_np; lra.
  - intros [H1 H2]. apply Rnot_le_lt. intros H.
    assert (0 <= (y - b) * (A * (y + b) + B)) by (apply mul_nn; lra). lra.
Qed.
(* opening upwards: the lower root *)
Lemma quad_up y : 0 <= A -> (b < y <-> 0 <= 2 * A * y + B \/ g y < 0).
Proof.
  intros NA. pose proof quad_slope as S. rewrite quad_split. split.
  - intros H. destruct (Rle_dec 0 (2 * A * y + B)) as [K|K]; [left; exact K|right]. apply mul_np; lra.
  - intros K. apply Rnot_le_lt. intros H. assert (0 <= A * (b - y)) by (apply Rmult_le_pos; lra).
    destruct K as [K|K]; [lra|]. assert (0 <= (y - b) * (A * (y + b) + B)) by (apply mul_nn; lra). lra.
Qed.
Lemma quad_up_le y : 0 <= A -> (b <= y <-> 0 <= 2 * A * y + B \/ g y <= 0).
Proof.
  intros NA. pose proof quad_slope as S. split.
  - intros [H|H]; [apply (quad_up y NA) in H; destruct H; [left; assumption|right; lra]|]. right. subst y. lra.
  - intros K. apply Rnot_lt_le. intros H. assert (0 <= A * (b - y)) by (apply Rmult_le_pos; lra).
    destruct K as [K|K]; [lra|]. rewrite quad_split in K. assert (0 < (y - b) * (A * (y + b) + B)) by (apply mul_nn'; lra). lra.
Qed.
End Quad.

(* ---------- the arcs ---------- *)
Section Arcs.
Variable X : R.
(* the distances as functions of the height *)
Definition dp (p : point) (y : R) : R :=
  ((IZR (px p) - X) * (IZR (px p) - X) + (IZR (py p) - y) * (IZR (py p) - y)) / (2 * (IZR (px p) - X)).
Definition len (p q : point) : R := rlen (rsub (of_pt q) (of_pt p)).
Definition ds (p q : point) (y : R) : R :=
  ((IZR (px q) - IZR (px p)) * (y - IZR (py p)) - (IZR (py q) - IZR (py p)) * (X - IZR (px p))) / (len p q + (IZR (py q) - IZR (py p))).
Lemma dp_neg p y : IZR (px p) < X -> dp p y < 0.
Proof.
  intros H. unfold dp. set (dx := IZR (px p) - X). assert (D : dx < 0) by (unfold dx; lra).
  assert (P : 0 < dx * dx + (IZR (py p) - y) * (IZR (py p) - y)).
  { pose proof (sq_nonneg (IZR (py p) - y)). assert (0 < dx * dx) by (apply mul_nn'; exact D). lra. }
  unfold Rdiv. apply mul_np; [exact P|]. apply Rinv_lt_0_compat. lra.
Qed.
Lemma dp_arc p y d : IZR (px p) < X -> point_arc p X y d <-> d = dp p y.
Proof.
  intros H. assert (D : IZR (px p) - X < 0) by lra. unfold point_arc. split.
  - intros [Nd L]. apply rlen_sq in L. unfold rdot, rsub, of_pt in L. cbn [rx ry] in L. unfold dp.
    apply (Rmult_eq_reg_r (2 * (IZR (px p) - X))); [|lra]. unfold Rdiv. rewrite Rmult_assoc, Rinv_l, Rmult_1_r by lra. lra.
  - intros ->. split; [apply dp_neg; exact H|]. unfold rlen. apply sqrt_of_sq; [|pose proof (dp_neg p y H); lra].
    unfold rdot, rsub, of_pt. cbn [rx ry].
    assert (E : dp p y * (2 * (IZR (px p) - X)) = (IZR (px p) - X) * (IZR (px p) - X) + (IZR (py p) - y) * (IZR (py p) - y)) by (unfold dp; field; lra). lra.
Qed.
Lemma len_sq p q : len p q * len p q = (IZR (px q) - IZR (px p)) * (IZR (px q) - IZR (px p)) + (IZR (py q) - IZR (py p)) * (IZR (py q) - IZR (py p)).
Proof. unfold len, rlen. rewrite sqrt_sqrt; [reflexivity|]. unfold rdot, rsub. cbn [rx ry]. pose proof (sq_nonneg (IZR (px q) - IZR (px p))). pose proof (sq_nonneg (IZR (py q) - IZR (py p))). cbn [of_pt rx ry]. lra. Qed.
Lemma len_pos p q : 0 <= len p q.
Proof. apply sqrt_pos. Qed.
(* the divisor of the distance *)
Lemma den_pos p q : (px p = px q -> (py p < py q)%Z) -> 0 < len p q + (IZR (py q) - IZR (py p)).
Proof.
  intros H. pose proof (len_sq p q) as L. pose proof (len_pos p q) as N.
  set (a := IZR (px q) - IZR (px p)) in *. set (b := IZR (py q) - IZR (py p)) in *.
  destruct (Rlt_dec 0 b) as [Pb|Pb]; [lra|].
  destruct (Z.eq_dec (px p) (px q)) as [E|E].
  - exfalso. apply H in E. apply IZR_lt in E. unfold b in Pb. lra.
  - assert (Na : a <> 0). { unfold a. intros Z. apply E. apply eq_IZR. lra. }
    assert (0 < a * a) by (apply Rsqr_pos_lt; exact Na).
    apply Rnot_le_lt. intros G. assert (0 <= (- b - len p q) * (- b + len p q)) by (apply Rmult_le_pos; lra). lra.
Qed.
Lemma ds_arc p q y d : (px p = px q -> (py p < py q)%Z) -> segment_arc p q X y d <-> d = ds p q y.
Proof.
  intros H. pose proof (den_pos p q H) as P. unfold segment_arc, ds. fold (len p q).
  unfold rcross, rsub, of_pt. cbn [rx ry]. split; intros E.
  - apply (Rmult_eq_reg_r (len p q + (IZR (py q) - IZR (py p)))); [|lra]. unfold Rdiv. rewrite Rmult_assoc, Rinv_l, Rmult_1_r by lra. lra.
  - assert (E' : d * (len p q + (IZR (py q) - IZR (py p))) = (IZR (px q) - IZR (px p)) * (y - IZR (py p)) - (IZR (py q) - IZR (py p)) * (X - IZR (px p))) by (rewrite E; field; lra). lra.
Qed.
Definition dist (p q : point) (y : R) : R := if pt_same p q then dp p y else ds p q y.
Lemma pt_same_iff p q : pt_same p q = true <-> p = q.
Proof.
  unfold pt_same. rewrite andb_true_iff, !Z.eqb_eq. destruct p as [x y], q as [x' y']. cbn [px py]. split; [intros [-> ->]; reflexivity|intros E; injection E; auto].
Qed.
Lemma dist_arc p q y : has_arc p q X -> arc p q X y (dist p q y) /\ forall d, arc p q X y d -> d = dist p q y.
Proof.
  intros [HP HS]. unfold dist. destruct (pt_same p q) eqn:E.
  - apply pt_same_iff in E. specialize (HP E). split.
    + left. split; [exact E|]. apply dp_arc; [exact HP|reflexivity].
    + intros d [[_ A]|[N _]]; [|contradiction]. apply (dp_arc p y d HP). exact A.
  - assert (N : p <> q) by (intros F; apply pt_same_iff in F; congruence).
    assert (HV : px p = px q -> (py p < py q)%Z) by (intros V; exact (proj1 (HS N V))). split.
    + right. split; [exact N|]. apply ds_arc; [exact HV|reflexivity].
    + intros d [[F _]|[_ A]]; [contradiction|]. apply (ds_arc p q y d HV). exact A.
Qed.
(* the breakpoint in terms of the distances *)
Lemma breakpoint_dist pl ql pr qr b : has_arc pl ql X -> has_arc pr qr X -> breakpoint pl ql pr qr X b ->
  dist pl ql b - dist pr qr b = 0 /\ exists eps, 0 < eps /\
  (forall y, b < y < b + eps -> dist pl ql y - dist pr qr y < 0) /\ (forall y, b - eps < y < b -> 0 < dist pl ql y - dist pr qr y).
Proof.
  intros HL HR [M [eps [E0 [U D]]]]. split.
  - rewrite (M (dist pl ql b) (dist pr qr b)); [ring|apply dist_arc; assumption|apply dist_arc; assumption].
  - exists eps. split; [exact E0|]. split; intros y Hy.
    + assert (dist pl ql y < dist pr qr y) by (apply (U y _ _ Hy); apply dist_arc; assumption). lra.
    + assert (dist pr qr y < dist pl ql y) by (apply (D y _ _ Hy); apply dist_arc; assumption). lra.
Qed.
End Arcs.

(* ---------- the distances of the code ---------- *)
Lemma sqrt_len p q : sqrt ((IZR (px q) - IZR (px p)) * (IZR (px q) - IZR (px p)) + (IZR (py q) - IZR (py p)) * (IZR (py q) - IZR (py p))) = len p q.
Proof. reflexivity. Qed.
Lemma dist_point_ok s p : IZR (px (e_p0 s)) < IZR (px p) -> dist_point s p = Some (dp (IZR (px p)) (e_p0 s) (IZR (py p))).
Proof. intros H. unfold dist_point, sx0, sy0. rewrite fdiv_ok by lra. reflexivity. Qed.
Lemma dist_segment_ok s p : (px (e_p0 s) = px (e_p1 s) -> (py (e_p0 s) < py (e_p1 s))%Z) ->
  dist_segment s p = Some (ds (IZR (px p)) (e_p0 s) (e_p1 s) (IZR (py p))).
Proof.
  intros H. pose proof (den_pos _ _ H) as P. unfold dist_segment, sev_vertical, sx0, sx1, sy0, sy1, ds.
  destruct (px (e_p0 s) =? px (e_p1 s))%Z eqn:V.
  - apply Z.eqb_eq in V. apply f_equal. pose proof (len_sq (e_p0 s) (e_p1 s)) as L. pose proof (len_pos (e_p0 s) (e_p1 s)) as N.
    specialize (H V). apply IZR_lt in H. rewrite V in *. set (b := IZR (py (e_p1 s)) - IZR (py (e_p0 s))) in *.
    assert (E : len (e_p0 s) (e_p1 s) = b). { apply sq_eq_pos; [lra|exact N|unfold b; lra]. }
    rewrite E. unfold b. field. lra.
  - apply Z.eqb_neq in V. rewrite fsqrt_ok; [|pose proof (sq_nonneg (IZR (px (e_p1 s)) - IZR (px (e_p0 s)))); pose proof (sq_nonneg (IZR (py (e_p1 s)) - IZR (py (e_p0 s)))); lra].
    rewrite sqrt_len. cbn [bind]. pose proof (len_sq (e_p0 s) (e_p1 s)) as L. pose proof (len_pos (e_p0 s) (e_p1 s)) as N.
    set (a := IZR (px (e_p1 s)) - IZR (px (e_p0 s))) in *. set (b := IZR (py (e_p1 s)) - IZR (py (e_p0 s))) in *.
    assert (Na : a <> 0). { unfold a. intros Z. apply V. apply eq_IZR. lra. }
    assert (Pa : 0 < a * a) by (apply Rsqr_pos_lt; exact Na).
    assert (EX : IZR (xprod (px (e_p1 s) - px (e_p0 s)) (py (e_p1 s) - py (e_p0 s)) (px p - px (e_p0 s)) (py p - py (e_p0 s))) =
      a * (IZR (py p) - IZR (py (e_p0 s))) - b * (IZR (px p) - IZR (px (e_p0 s)))) by (unfold xprod; izr; reflexivity).
    rewrite EX. unfold is_neg. destruct (Rlt_dec b 0) as [Nb|Nb]; cbn [negb].
    + rewrite fdiv_ok by lra. cbn [bind]. apply f_equal.
      replace ((len (e_p0 s) (e_p1 s) - b) / (a * a)) with (1 / (len (e_p0 s) (e_p1 s) + b)); [field; lra|].
      replace (a * a) with ((len (e_p0 s) (e_p1 s) - b) * (len (e_p0 s) (e_p1 s) + b)) by lra. field. lra.
    + rewrite fdiv_ok by lra. cbn [bind]. apply f_equal. field. lra.
Qed.
Lemma orient3_R p q u : IZR ((px p - px q) * (py q - py u) - (px q - px u) * (py p - py q)) =
  (IZR (px q) - IZR (px p)) * (IZR (py u) - IZR (py p)) - (IZR (py q) - IZR (py p)) * (IZR (px u) - IZR (px p)).
Proof. izr. ring. Qed.

(* ---------- two points ---------- *)
Lemma pp_ok l r p b : has_arc (e_p0 l) (e_p0 l) (IZR (px p)) -> has_arc (e_p0 r) (e_p0 r) (IZR (px p)) ->
  breakpoint (e_p0 l) (e_p0 l) (e_p0 r) (e_p0 r) (IZR (px p)) b ->
  exists v, dist_pp l r p = Some v /\ (v = true <-> b < IZR (py p)).
Proof.
  intros HL HR BP. destruct (breakpoint_dist _ _ _ _ _ _ HL HR BP) as [G0 [eps [E0 [Up Dn]]]].
  destruct HL as [HL _]. destruct HR as [HR _]. specialize (HL eq_refl). specialize (HR eq_refl).
  set (X := IZR (px p)) in *. set (y := IZR (py p)).
  assert (ED : forall q z, dist X q q z = dp X q z) by (intros q z; unfold dist; rewrite (proj2 (pt_same_iff q q) eq_refl); reflexivity).
  set (xl := IZR (px (e_p0 l)) - X) in *. set (xr := IZR (px (e_p0 r)) - X) in *.
  assert (Nl : xl < 0) by (unfold xl; lra). assert (Nr : xr < 0) by (unfold xr; lra).
  set (yl := IZR (py (e_p0 l))). set (yr := IZR (py (e_p0 r))).
  set (A := 1 / (2 * xl) - 1 / (2 * xr)). set (B := yr / xr - yl / xl). set (C := (xl * xl + yl * yl) / (2 * xl) - (xr * xr + yr * yr) / (2 * xr)).
  assert (EG : forall z, dist X (e_p0 l) (e_p0 l) z - dist X (e_p0 r) (e_p0 r) z = A * (z * z) + B * z + C).
  { intros z. rewrite !ED. unfold dp. fold xl xr yl yr. unfold A, B, C. field. lra. }
  rewrite EG in G0.
  assert (Up' : forall z, b < z < b + eps -> A * (z * z) + B * z + C < 0) by (intros z Hz; rewrite <- EG; apply Up; exact Hz).
  assert (Dn' : forall z, b - eps < z < b -> 0 < A * (z * z) + B * z + C) by (intros z Hz; rewrite <- EG; apply Dn; exact Hz).
  unfold dist_pp, sx0, sy0. rewrite (dist_point_ok l p HL), (dist_point_ok r p HR). cbn [bind]. fold X y.
  assert (LT : ltb (dp X (e_p0 l) y) (dp X (e_p0 r) y) = true <-> A * (y * y) + B * y + C < 0).
  { rewrite ltb_iff, <- EG, !ED. split; lra. }
  assert (EA : A = (xr - xl) / (2 * (xl * xr))) by (unfold A; field; lra).
  assert (PX : 0 < / (2 * (xl * xr))) by (apply Rinv_0_lt_compat; assert (0 < xl * xr) by (apply mul_nn'; assumption); lra).
  destruct (px (e_p0 l) >? px (e_p0 r))%Z eqn:C1.
  - assert (LX : xr < xl) by (unfold xl, xr; assert (IZR (px (e_p0 r)) < IZR (px (e_p0 l))) by (apply IZR_lt; lia); lra).
    assert (NA : A <= 0). { rewrite EA. unfold Rdiv. apply Rlt_le. assert (0 < / (2 * (xl * xr)) * (xl - xr)) by (apply mul_pp; lra). lra. }
    (* at the height of the lower site its own arc is nearer *)
    assert (GL : 0 < A * (yl * yl) + B * yl + C).
    { replace (A * (yl * yl) + B * yl + C) with ((xl - xr) / 2 + (yl - yr) * (yl - yr) * / (2 * - xr)) by (unfold A, B, C; field; lra).
      assert (0 <= (yl - yr) * (yl - yr) * / (2 * - xr)) by (apply Rmult_le_pos; [apply sq_nonneg|apply Rlt_le, Rinv_0_lt_compat; lra]). lra. }
    assert (BL : yl <= b). { apply Rnot_lt_le. intros Q. apply (quad_down A B C b eps G0 E0 Up' Dn' yl NA) in Q. lra. }
    destruct (py p <=? py (e_p0 l))%Z eqn:C2.
    + exists false. split; [reflexivity|]. split; [discriminate|]. intros Q. assert (y <= yl) by (apply IZR_le; lia). unfold y in *. lra.
    + eexists. split; [reflexivity|]. rewrite LT. assert (Y : yl < y) by (apply IZR_lt; lia). split.
      * intros G. apply Rnot_le_lt. intros Q. fold y in Q.
        rewrite (quad_split A B C b G0) in G. rewrite (quad_split A B C b G0 yl) in GL.
        assert (yl < b) by (destruct BL as [BL|BL]; [exact BL|rewrite BL in GL; lra]).
        assert (H1 : A * (yl + b) + B < 0). { apply Rnot_le_lt. intros K. assert (0 <= (b - yl) * (A * (yl + b) + B)) by (apply Rmult_le_pos; lra). lra. }
        assert (0 <= - A * (y - yl)) by (apply Rmult_le_pos; lra).
        assert (0 <= (y - b) * (A * (y + b) + B)) by (apply mul_nn; lra). lra.
      * intros Q. apply (quad_down A B C b eps G0 E0 Up' Dn' y NA) in Q. tauto.
  - destruct (px (e_p0 l) <? px (e_p0 r))%Z eqn:C2.
    + assert (LX : xl < xr) by (unfold xl, xr; assert (IZR (px (e_p0 l)) < IZR (px (e_p0 r))) by (apply IZR_lt; lia); lra).
      assert (NA : 0 <= A). { rewrite EA. unfold Rdiv. apply Rlt_le. apply mul_pp; lra. }
      assert (GR : A * (yr * yr) + B * yr + C < 0).
      { replace (A * (yr * yr) + B * yr + C) with (- ((xr - xl) / 2 + (yl - yr) * (yl - yr) * / (2 * - xl))) by (unfold A, B, C; field; lra).
        assert (0 <= (yl - yr) * (yl - yr) * / (2 * - xl)) by (apply Rmult_le_pos; [apply sq_nonneg|apply Rlt_le, Rinv_0_lt_compat; lra]). lra. }
      assert (BR : b < yr). { apply (quad_up A B C b eps G0 E0 Up' Dn' yr NA). right. exact GR. }
      destruct (py p >=? py (e_p0 r))%Z eqn:C3.
      * exists true. split; [reflexivity|]. split; [|reflexivity]. intros _. assert (yr <= y) by (apply IZR_le; lia). unfold y in *. lra.
      * eexists. split; [reflexivity|]. rewrite LT. assert (Y : y < yr) by (apply IZR_lt; lia). split.
        -- intros G. apply (quad_up A B C b eps G0 E0 Up' Dn' y NA). right. exact G.
        -- intros Q. fold y in Q. rewrite (quad_split A B C b G0). rewrite (quad_split A B C b G0 yr) in GR.
           assert (H1 : A * (yr + b) + B < 0). { apply Rnot_le_lt. intros K. assert (0 <= (yr - b) * (A * (yr + b) + B)) by (apply Rmult_le_pos; lra). lra. }
           assert (0 <= A * (yr - y)) by (apply Rmult_le_pos; lra). apply mul_np; lra.
    + assert (LX : xl = xr) by (unfold xl, xr; replace (px (e_p0 l)) with (px (e_p0 r)) by lia; reflexivity).
      assert (ZA : A = 0) by (unfold A; rewrite LX; ring).
      pose proof (quad_slope A B C b eps G0 E0 Up' Dn') as S. rewrite ZA in S, G0.
      assert (EB : B = (yr - yl) / xr) by (unfold B; rewrite LX; field; lra).
      assert (EC : C = (yl - yr) * (yl + yr) / (2 * xr)) by (unfold C; rewrite LX; field; lra).
      assert (YY : yl < yr). { apply Rnot_le_lt. intros K. assert (0 <= B); [|lra]. rewrite EB. unfold Rdiv. apply mul_nn; [lra|]. apply Rlt_le, Rinv_lt_0_compat. exact Nr. }
      assert (Eb : 2 * b = yl + yr).
      { apply (Rmult_eq_reg_l B); [|lra]. assert (B * (yl + yr) = - 2 * C) by (rewrite EB, EC; field; lra). lra. }
      eexists. split; [reflexivity|]. rewrite Z.ltb_lt. fold y. split; intros Q.
      * apply IZR_lt in Q. rewrite mult_IZR, plus_IZR in Q. fold y yl yr in Q. lra.
      * apply lt_IZR. rewrite mult_IZR, plus_IZR. fold y yl yr. lra.
Qed.

(* ---------- a point and a segment ---------- *)
(* the lower root of a function that opens upwards, as the code asks for it *)
Lemma quad_up_le' A B C b eps y : A * (b * b) + B * b + C = 0 -> 0 < eps ->
  (forall z, b < z < b + eps -> A * (z * z) + B * z + C < 0) -> (forall z, b - eps < z < b -> 0 < A * (z * z) + B * z + C) -> 0 <= A ->
  (b <= y <-> 0 < 2 * A * y + B \/ A * (y * y) + B * y + C <= 0).
Proof.
  intros G0 E0 Up Dn NA. rewrite (quad_up_le A B C b eps G0 E0 Up Dn y NA). split.
  - intros [[H|H]|H]; [left; exact H| |right; exact H]. right. rewrite (quad_split A B C b G0).
    replace ((y - b) * (A * (y + b) + B)) with (- (A * ((y - b) * (y - b))) + (y - b) * (2 * A * y + B)) by ring. rewrite <- H.
    pose proof (sq_nonneg (y - b)). assert (0 <= A * ((y - b) * (y - b))) by (apply Rmult_le_pos; assumption). lra.
  - intros [H|H]; [left; lra|right; exact H].
Qed.
Section PS.
Variables (l r : sev) (p : point).
Let X := IZR (px p).
Let y := IZR (py p).
Let a := IZR (sx1 r) - IZR (sx0 r).
Let b := IZR (sy1 r) - IZR (sy0 r).
Let fx := X - IZR (sx0 l).
Let fy := y - IZR (sy0 l).
Let L := len (e_p0 r) (e_p1 r).
(* minus the slope of the difference of the distances, up to a positive factor *)
Let W := fy * (L + b) + a * fx.
Hypothesis HP : IZR (px (e_p0 l)) < X.
Hypothesis HV : px (e_p0 r) = px (e_p1 r) -> (py (e_p0 r) < py (e_p1 r))%Z /\ IZR (px (e_p0 r)) < X.
Hypothesis HN : e_p0 r <> e_p1 r.
Hypothesis HF : flagged (e_p0 r) (e_p1 r) (e_inv r).
Lemma ps_fx : 0 < fx.
Proof. unfold fx, sx0. lra. Qed.
Lemma ps_len : L * L = a * a + b * b /\ 0 <= L /\ 0 < L + b.
Proof.
  split; [exact (len_sq (e_p0 r) (e_p1 r))|]. split; [apply len_pos|]. apply den_pos. intros V. apply HV. exact V.
Qed.
Lemma ps_side : if e_inv r then a < 0 else 0 < a \/ (a = 0 /\ 0 < b).
Proof.
  specialize (HF HN). unfold pt_less in HF. unfold a, b, sx0, sx1, sy0, sy1. destruct (e_inv r).
  - destruct HF as [F|[F1 F2]]; [apply IZR_lt in F; lra|]. destruct (HV (eq_sym F1)) as [G _]. lia.
  - destruct HF as [F|[F1 F2]]; [apply IZR_lt in F; left; lra|]. right. rewrite F1. apply IZR_lt in F2. split; lra.
Qed.
(* the segment is met from its right side, or the point is on its left side *)
Lemma ps_right : (orient3 (e_p0 r) (e_p1 r) p =? -1)%Z = true <-> a * (y - IZR (sy0 r)) - b * (X - IZR (sx0 r)) < 0.
Proof. exact (right3_iff (e_p0 r) (e_p1 r) p). Qed.
Lemma xprod_pos : (0 <? xprod (sx1 r - sx0 r) (sy1 r - sy0 r) (px p - sx0 l) (py p - sy0 l))%Z = true <-> 0 < a * fy - b * fx.
Proof.
  rewrite Z.ltb_lt. replace (a * fy - b * fx) with (IZR (xprod (sx1 r - sx0 r) (sy1 r - sy0 r) (px p - sx0 l) (py p - sy0 l))).
  - split; [apply IZR_lt|apply lt_IZR].
  - unfold xprod. izr. reflexivity.
Qed.
Lemma ps_W_left : 0 < a * fy - b * fx -> 0 < a * W.
Proof.
  intros H. destruct ps_len as [Q [N P]]. pose proof ps_fx as F.
  replace (a * W) with ((a * fy - b * fx) * (L + b) + fx * (b * L + (a * a + b * b))) by (unfold W; ring). rewrite <- Q.
  replace (b * L + L * L) with (L * (L + b)) by ring.
  assert (0 < (a * fy - b * fx) * (L + b)) by (apply mul_pp; assumption).
  assert (0 <= fx * (L * (L + b))) by (apply Rmult_le_pos; [lra|apply Rmult_le_pos; lra]). lra.
Qed.
Lemma ps_E : (a * (fy + fx) * (fy - fx) - 2 * b * fx * fy) * (L + b) = W * ((a * fy - b * fx) - L * fx).
Proof.
  destruct ps_len as [Q _].
  assert (K : (a * (fy + fx) * (fy - fx) - 2 * b * fx * fy) * (L + b) - W * ((a * fy - b * fx) - L * fx) = fx * fy * (L * L - (a * a + b * b))) by (unfold W; ring).
  rewrite Q in K. lra.
Qed.
(* what the quick answer means *)
Lemma fast_ps_W rev : (orient3 (e_p0 r) (e_p1 r) p =? -1)%Z = true ->
  match fast_ps l r p rev with
  | Some v => v = rev /\ (if rev then 0 < W else W < 0)
  | None => if rev then W <= 0 else 0 <= W
  end.
Proof.
  intros RT. unfold fast_ps. rewrite RT. cbn [negb]. pose proof ps_fx as F. destruct ps_len as [Q [N P]]. pose proof ps_side as S.
  destruct (sev_vertical r) eqn:V.
  - unfold sev_vertical in V. apply Z.eqb_eq in V.
    assert (A0 : a = 0) by (unfold a, sx0, sx1; rewrite V; ring).
    assert (EW : W = fy * (L + b)) by (unfold W; rewrite A0; ring).
    destruct (py p <? sy0 l)%Z eqn:C1.
    + assert (fy < 0) by (unfold fy, y; apply Z.ltb_lt, IZR_lt in C1; lra). assert (W < 0) by (rewrite EW, Rmult_comm; apply mul_np; assumption).
      destruct rev; cbn [andb negb]; [|split; [reflexivity|assumption]]. destruct (py p >? sy0 l)%Z eqn:C2; [lia|]. cbn [andb]. lra.
    + cbn [andb]. assert (0 <= fy) by (unfold fy, y; assert (IZR (sy0 l) <= IZR (py p)) by (apply IZR_le; lia); lra).
      assert (0 <= W) by (rewrite EW; apply Rmult_le_pos; lra).
      destruct (py p >? sy0 l)%Z eqn:C2; destruct rev; cbn [andb].
      * split; [reflexivity|]. rewrite EW. apply mul_pp; [|exact P]. unfold fy, y. assert (IZR (sy0 l) < IZR (py p)) by (apply IZR_lt; lia). lra.
      * assumption.
      * rewrite EW. replace fy with 0; [lra|]. unfold fy, y. replace (py p) with (sy0 l) by lia. ring.
      * assumption.
  - unfold sev_vertical in V. apply Z.eqb_neq in V.
    assert (NA : a <> 0) by (unfold a; intros Z; apply V; apply eq_IZR; unfold sx0, sx1 in Z; lra).
    destruct (0 <? xprod (sx1 r - sx0 r) (sy1 r - sy0 r) (px p - sx0 l) (py p - sy0 l))%Z eqn:C1.
    + apply xprod_pos, ps_W_left in C1. destruct (e_inv r); cbn [negb].
      * assert (W < 0) by (apply Rnot_le_lt; intros K; assert (0 <= - a * W) by (apply Rmult_le_pos; lra); lra).
        destruct rev; [lra|split; [reflexivity|assumption]].
      * assert (PA : 0 < a) by (destruct S as [S|[S _]]; lra).
        assert (0 < W) by (apply Rnot_le_lt; intros K; assert (0 <= a * - W) by (apply Rmult_le_pos; lra); lra).
        destruct rev; [split; [reflexivity|assumption]|lra].
    + assert (C2 : a * fy - b * fx <= 0). { apply Rnot_lt_le. intros K. apply xprod_pos in K. congruence. }
      assert (PL : 0 < L). { destruct N as [N|N]; [exact N|]. exfalso. rewrite <- N in Q. assert (0 < a * a) by (apply Rsqr_pos_lt; exact NA). pose proof (sq_nonneg b). lra. }
      assert (NV : (a * fy - b * fx) - L * fx < 0) by (assert (0 < L * fx) by (apply mul_pp; assumption); lra).
      pose proof ps_E as PE. set (V' := a * fy - b * fx - L * fx) in *.
      change (match (if ltb (a * (fy + fx) * (fy - fx)) (2 * b * fx * fy) || ltb (2 * b * fx * fy) (a * (fy + fx) * (fy - fx)) then
        if xorb (ltb (2 * b * fx * fy) (a * (fy + fx) * (fy - fx))) rev then Some rev else None else None) with
        | Some v => v = rev /\ (if rev then 0 < W else W < 0) | None => if rev then W <= 0 else 0 <= W end).
      set (e1 := a * (fy + fx) * (fy - fx)) in *. set (e2 := 2 * b * fx * fy) in *.
      unfold ltb. destruct (Rlt_dec e1 e2) as [T1|T1]; destruct (Rlt_dec e2 e1) as [T2|T2]; [lra| | |]; cbn [orb xorb negb].
      * assert (0 < W). { apply Rnot_le_lt. intros K. assert (0 <= W * V') by (apply mul_nn; lra). assert (0 < (e2 - e1) * (L + b)) by (apply mul_pp; lra). lra. }
        destruct rev; [split; [reflexivity|assumption]|lra].
      * assert (W < 0). { apply Rnot_le_lt. intros K. assert (0 <= W * - V') by (apply Rmult_le_pos; lra). assert (0 < (e1 - e2) * (L + b)) by (apply mul_pp; lra). lra. }
        destruct rev; [lra|split; [reflexivity|assumption]].
      * assert (W = 0). { replace (e1 - e2) with 0 in PE by lra. apply (Rmult_eq_reg_r V'); lra. }
        destruct rev; lra.
Qed.
(* the difference of the distances *)
Let dx := IZR (px (e_p0 l)) - X.
Let A := 1 / (2 * dx).
Let B := - IZR (py (e_p0 l)) / dx - a / (L + b).
Let C := (dx * dx + IZR (py (e_p0 l)) * IZR (py (e_p0 l))) / (2 * dx) + (a * IZR (py (e_p0 r)) + b * (X - IZR (px (e_p0 r)))) / (L + b).
Lemma ps_quad z : dp X (e_p0 l) z - ds X (e_p0 r) (e_p1 r) z = A * (z * z) + B * z + C.
Proof.
  destruct ps_len as [_ [_ P]]. assert (dx < 0) by (unfold dx; lra).
  change (dp X (e_p0 l) z) with ((dx * dx + (IZR (py (e_p0 l)) - z) * (IZR (py (e_p0 l)) - z)) / (2 * dx)).
  change (ds X (e_p0 r) (e_p1 r) z) with ((a * (z - IZR (py (e_p0 r))) - b * (X - IZR (px (e_p0 r)))) / (L + b)).
  unfold A, B, C. field. lra.
Qed.
Lemma ps_A : A < 0.
Proof. unfold A, Rdiv. rewrite Rmult_1_l. apply Rinv_lt_0_compat. unfold dx. lra. Qed.
Lemma ps_slope : 2 * A * y + B = - W * / ((L + b) * fx).
Proof.
  destruct ps_len as [_ [_ P]]. pose proof ps_fx as F. unfold A, B, W. replace dx with (- fx) by (unfold dx, fx, sx0; ring).
  unfold fy, sy0. field. lra.
Qed.
Lemma ps_inv : 0 < / ((L + b) * fx).
Proof. apply Rinv_0_lt_compat. apply mul_pp; [apply ps_len|apply ps_fx]. Qed.
(* on the left side of the segment *)
Lemma ps_not_right z : (orient3 (e_p0 r) (e_p1 r) p =? -1)%Z = false -> (if e_inv r then z <= y else y <= z) -> dp X (e_p0 l) z < ds X (e_p0 r) (e_p1 r) z.
Proof.
  intros RT HZ. destruct ps_len as [_ [_ P]]. pose proof (dp_neg X (e_p0 l) z HP) as ND. pose proof ps_side as S.
  assert (G : 0 <= a * (y - IZR (sy0 r)) - b * (X - IZR (sx0 r))). { apply Rnot_lt_le. intros K. apply ps_right in K. congruence. }
  assert (0 <= ds X (e_p0 r) (e_p1 r) z); [|lra].
  change (ds X (e_p0 r) (e_p1 r) z) with ((a * (z - IZR (sy0 r)) - b * (X - IZR (sx0 r))) / (L + b)).
  unfold Rdiv. apply Rmult_le_pos; [|apply Rlt_le, Rinv_0_lt_compat; exact P].
  assert (0 <= a * (z - y)); [|lra]. destruct (e_inv r).
  - apply mul_nn; lra.
  - apply Rmult_le_pos; [|lra]. destruct S as [S|[S _]]; lra.
Qed.
Variable h eps : R.
Hypothesis E0 : 0 < eps.
Hypothesis G0 : dp X (e_p0 l) h - ds X (e_p0 r) (e_p1 r) h = 0.
Lemma ps_left_side : (orient3 (e_p0 r) (e_p1 r) p =? -1)%Z = false -> if e_inv r then y < h else h < y.
Proof.
  intros RT. pose proof (ps_not_right h RT) as K. destruct (e_inv r); apply Rnot_le_lt; intros Q; specialize (K Q); lra.
Qed.
Lemma ps_dists : dist_point l p = Some (dp X (e_p0 l) y) /\ dist_segment r p = Some (ds X (e_p0 r) (e_p1 r) y).
Proof. split; [apply dist_point_ok; exact HP|apply dist_segment_ok; intros V; apply HV; exact V]. Qed.
Lemma ps_ok : (forall z, h < z < h + eps -> dp X (e_p0 l) z - ds X (e_p0 r) (e_p1 r) z < 0) ->
  (forall z, h - eps < z < h -> 0 < dp X (e_p0 l) z - ds X (e_p0 r) (e_p1 r) z) ->
  exists v, dist_ps l r p false = Some v /\ (v = true <-> h < y).
Proof.
  intros Up Dn. unfold dist_ps. destruct ps_dists as [-> ->]. cbn [bind]. rewrite xorb_false_l.
  destruct (orient3 (e_p0 r) (e_p1 r) p =? -1)%Z eqn:RT.
  - pose proof (fast_ps_W false RT) as FW. pose proof ps_A as NA. pose proof ps_slope as SL. pose proof ps_inv as PI.
    assert (QD : h < y <-> 2 * A * y + B <= 0 /\ A * (y * y) + B * y + C < 0).
    { apply (quad_down A B C h eps); try assumption; [rewrite <- ps_quad; exact G0|intros z Hz; rewrite <- ps_quad; apply Up, Hz|
        intros z Hz; rewrite <- ps_quad; apply Dn, Hz|lra]. }
    destruct (fast_ps l r p false) as [v|].
    + destruct FW as [-> NW]. exists false. split; [reflexivity|]. rewrite QD. split; [discriminate|]. intros [Q _]. rewrite SL in Q.
      assert (0 < - W * / ((L + b) * fx)) by (apply mul_pp; lra). lra.
    + eexists. split; [reflexivity|]. rewrite ltb_iff, QD, <- ps_quad. split; [intros Q; split; [|lra]|intros [_ Q]; lra].
      rewrite SL. assert (0 <= W * / ((L + b) * fx)) by (apply Rmult_le_pos; lra). lra.
  - pose proof (ps_left_side RT) as LS. unfold fast_ps. rewrite RT. cbn [negb]. eexists. split; [reflexivity|].
    destruct (e_inv r); cbn [negb]; split; (discriminate || lra || auto); intros; exfalso; lra.
Qed.
Lemma sp_ok : (forall z, h < z < h + eps -> ds X (e_p0 r) (e_p1 r) z - dp X (e_p0 l) z < 0) ->
  (forall z, h - eps < z < h -> 0 < ds X (e_p0 r) (e_p1 r) z - dp X (e_p0 l) z) ->
  exists v, dist_ps l r p true = Some v /\ (v = true <-> h <= y).
Proof.
  intros Up Dn. unfold dist_ps. destruct ps_dists as [-> ->]. cbn [bind]. rewrite xorb_true_l.
  destruct (orient3 (e_p0 r) (e_p1 r) p =? -1)%Z eqn:RT.
  - pose proof (fast_ps_W true RT) as FW. pose proof ps_A as NA. pose proof ps_slope as SL. pose proof ps_inv as PI.
    assert (EQ : forall z, ds X (e_p0 r) (e_p1 r) z - dp X (e_p0 l) z = - A * (z * z) + - B * z + - C) by (intros z; pose proof (ps_quad z); lra).
    assert (QU : h <= y <-> 0 < 2 * - A * y + - B \/ - A * (y * y) + - B * y + - C <= 0).
    { apply (quad_up_le' (- A) (- B) (- C) h eps); try assumption; [rewrite <- EQ; lra|intros z Hz; rewrite <- EQ; apply Up, Hz|
        intros z Hz; rewrite <- EQ; apply Dn, Hz|lra]. }
    destruct (fast_ps l r p true) as [v|].
    + destruct FW as [-> NW]. exists true. split; [reflexivity|]. rewrite QU. split; [|reflexivity]. intros _. left.
      assert (0 < W * / ((L + b) * fx)) by (apply mul_pp; lra). lra.
    + eexists. split; [reflexivity|]. rewrite QU, <- EQ, negb_true_iff. split.
      * intros Q. right. apply Rnot_lt_le. intros K. assert (T : ltb (dp X (e_p0 l) y) (ds X (e_p0 r) (e_p1 r) y) = true) by (apply ltb_iff; lra). congruence.
      * intros Q. destruct (ltb (dp X (e_p0 l) y) (ds X (e_p0 r) (e_p1 r) y)) eqn:T; [|reflexivity]. apply ltb_iff in T. exfalso.
        destruct Q as [Q|Q]; [|lra]. assert (0 <= - W * / ((L + b) * fx)) by (apply Rmult_le_pos; lra). lra.
  - pose proof (ps_left_side RT) as LS. unfold fast_ps. rewrite RT. cbn [negb]. eexists. split; [reflexivity|].
    destruct (e_inv r); cbn [negb]; split; (discriminate || lra || auto); intros; exfalso; lra.
Qed.
End PS.

(* ---------- two segments ---------- *)
Lemma ss_ok l r p h : e_sorted l <> e_sorted r -> e_p0 l <> e_p1 l -> e_p0 r <> e_p1 r ->
  has_arc (e_p0 l) (e_p1 l) (IZR (px p)) -> has_arc (e_p0 r) (e_p1 r) (IZR (px p)) ->
  breakpoint (e_p0 l) (e_p1 l) (e_p0 r) (e_p1 r) (IZR (px p)) h ->
  exists v, dist_ss l r p = Some v /\ (v = true <-> h < IZR (py p)).
Proof.
  intros NI NL NR HL HR BP. destruct (breakpoint_dist _ _ _ _ _ _ HL HR BP) as [G0 [eps [E0 [Up Dn]]]].
  assert (VL : px (e_p0 l) = px (e_p1 l) -> (py (e_p0 l) < py (e_p1 l))%Z) by (intros V; apply (proj2 HL NL V)).
  assert (VR : px (e_p0 r) = px (e_p1 r) -> (py (e_p0 r) < py (e_p1 r))%Z) by (intros V; apply (proj2 HR NR V)).
  unfold dist_ss. destruct (Nat.eqb_spec (e_sorted l) (e_sorted r)) as [E|_]; [contradiction|].
  rewrite (dist_segment_ok l p VL), (dist_segment_ok r p VR). cbn [bind]. eexists. split; [reflexivity|]. rewrite ltb_iff.
  set (X := IZR (px p)) in *. set (y := IZR (py p)) in *.
  assert (ED : forall s, e_p0 s <> e_p1 s -> forall z, dist X (e_p0 s) (e_p1 s) z = ds X (e_p0 s) (e_p1 s) z).
  { intros s N z. unfold dist. destruct (pt_same (e_p0 s) (e_p1 s)) eqn:T; [apply pt_same_iff in T; contradiction|reflexivity]. }
  set (kl := len (e_p0 l) (e_p1 l) + (IZR (py (e_p1 l)) - IZR (py (e_p0 l)))). set (kr := len (e_p0 r) (e_p1 r) + (IZR (py (e_p1 r)) - IZR (py (e_p0 r)))).
  assert (Pl : 0 < kl) by (apply den_pos; exact VL). assert (Pr : 0 < kr) by (apply den_pos; exact VR).
  set (B := (IZR (px (e_p1 l)) - IZR (px (e_p0 l))) / kl - (IZR (px (e_p1 r)) - IZR (px (e_p0 r))) / kr).
  set (C := - ((IZR (px (e_p1 l)) - IZR (px (e_p0 l))) * IZR (py (e_p0 l)) + (IZR (py (e_p1 l)) - IZR (py (e_p0 l))) * (X - IZR (px (e_p0 l)))) / kl
    + ((IZR (px (e_p1 r)) - IZR (px (e_p0 r))) * IZR (py (e_p0 r)) + (IZR (py (e_p1 r)) - IZR (py (e_p0 r))) * (X - IZR (px (e_p0 r)))) / kr).
  assert (EG : forall z, ds X (e_p0 l) (e_p1 l) z - ds X (e_p0 r) (e_p1 r) z = 0 * (z * z) + B * z + C).
  { intros z. unfold ds. fold kl kr. unfold B, C. field. lra. }
  assert (QD : h < y <-> 2 * 0 * y + B <= 0 /\ 0 * (y * y) + B * y + C < 0).
  { apply (quad_down 0 B C h eps); try assumption; [rewrite <- EG, <- !ED by assumption; exact G0|intros z Hz; rewrite <- EG, <- !ED by assumption; apply Up, Hz|
      intros z Hz; rewrite <- EG, <- !ED by assumption; apply Dn, Hz|lra]. }
  assert (SL : 2 * 0 * h + B < 0).
  { apply (quad_slope 0 B C h eps); try assumption; [rewrite <- EG, <- !ED by assumption; exact G0|intros z Hz; rewrite <- EG, <- !ED by assumption; apply Up, Hz|
      intros z Hz; rewrite <- EG, <- !ED by assumption; apply Dn, Hz]. }
  rewrite QD, <- EG. split; [intros Q; split; lra|intros [_ Q]; lra].
Qed.
(* the two sides of one segment *)
Lemma same_ok l r p d : e_sorted l = e_sorted r -> e_p0 l <> e_p1 l -> has_arc (e_p0 l) (e_p1 l) (IZR (px p)) ->
  arc (e_p0 l) (e_p1 l) (IZR (px p)) (IZR (py p)) d ->
  exists v, dist_ss l r p = Some v /\ (v = true <-> 0 < d).
Proof.
  intros SI NL HL AD. assert (VL : px (e_p0 l) = px (e_p1 l) -> (py (e_p0 l) < py (e_p1 l))%Z) by (intros V; apply (proj2 HL NL V)).
  destruct AD as [[E _]|[_ AD]]; [contradiction|]. apply (ds_arc _ _ _ _ _ VL) in AD. subst d.
  unfold dist_ss. rewrite SI, Nat.eqb_refl. eexists. split; [reflexivity|].
  pose proof (den_pos _ _ VL) as P. unfold ds.
  set (k := len (e_p0 l) (e_p1 l) + (IZR (py (e_p1 l)) - IZR (py (e_p0 l)))) in *.
  set (n := (IZR (px (e_p1 l)) - IZR (px (e_p0 l))) * (IZR (py p) - IZR (py (e_p0 l))) - (IZR (py (e_p1 l)) - IZR (py (e_p0 l))) * (IZR (px p) - IZR (px (e_p0 l)))).
  assert (PI : 0 < / k) by (apply Rinv_0_lt_compat; exact P).
  assert (EN : n = IZR (xprod (px (e_p0 l) - px (e_p1 l)) (px (e_p1 l) - px p) (py (e_p0 l) - py (e_p1 l)) (py (e_p1 l) - py p))).
  { unfold n, xprod. izr. ring. }
  unfold orient3. rewrite Z.eqb_eq. split.
  - intros S. unfold Rdiv. apply mul_pp; [|exact PI]. rewrite EN. apply IZR_lt. lia.
  - intros Q. assert (0 < n). { apply Rnot_le_lt. intros K. unfold Rdiv in Q. assert (0 <= - n * / k) by (apply Rmult_le_pos; lra). lra. }
    rewrite EN in H. apply lt_IZR in H. lia.
Qed.

(* ---------- the predicate ---------- *)
Lemma sev_point_iff s : sev_segment s = false <-> e_p0 s = e_p1 s.
Proof.
  unfold sev_segment. destruct (e_p0 s) as [x y], (e_p1 s) as [x' y']. cbn [px py]. split; intros H.
  - f_equal; lia.
  - injection H as -> ->. rewrite !Z.eqb_refl. reflexivity.
Qed.
Lemma predicate_ok l r p h :
  has_arc (e_p0 l) (e_p1 l) (IZR (px p)) -> has_arc (e_p0 r) (e_p1 r) (IZR (px p)) ->
  flagged (e_p0 l) (e_p1 l) (e_inv l) -> flagged (e_p0 r) (e_p1 r) (e_inv r) -> 
  (e_p0 l <> e_p1 l -> e_p0 r <> e_p1 r -> e_sorted l <> e_sorted r) ->
  breakpoint (e_p0 l) (e_p1 l) (e_p0 r) (e_p1 r) (IZR (px p)) h ->
  exists v, distance_predicate l r p = Some v /\
    (~ (e_p0 l <> e_p1 l /\ e_p0 r = e_p1 r) -> (v = true <-> h < IZR (py p))) /\
    (e_p0 l <> e_p1 l /\ e_p0 r = e_p1 r -> (v = true <-> h <= IZR (py p))).
Proof.
  intros HL HR FL FR NI BP. unfold distance_predicate.
  destruct (sev_segment l) eqn:SL; destruct (sev_segment r) eqn:SR; cbn [negb];
    [| apply sev_point_iff in SR | apply sev_point_iff in SL | apply sev_point_iff in SL; apply sev_point_iff in SR ].
  - assert (NL : e_p0 l <> e_p1 l) by (intros E; apply sev_point_iff in E; congruence).
    assert (NR : e_p0 r <> e_p1 r) by (intros E; apply sev_point_iff in E; congruence).
    destruct (ss_ok l r p h (NI NL NR) NL NR HL HR BP) as [v [E V]]. exists v. split; [exact E|]. split; [intros _; exact V|tauto].
  - assert (NL : e_p0 l <> e_p1 l) by (intros E; apply sev_point_iff in E; congruence).
    destruct (breakpoint_dist _ _ _ _ _ _ HL HR BP) as [G0 [eps [E0 [Up Dn]]]]. unfold dist in *.
    rewrite (proj2 (pt_same_iff _ _) SR) in *.
    destruct (pt_same (e_p0 l) (e_p1 l)) eqn:T; [apply pt_same_iff in T; contradiction|].
    destruct (sp_ok r l p (proj1 HR SR) (proj2 HL NL) NL FL h eps E0 ltac:(lra) Up Dn) as [v [E V]].
    exists v. split; [exact E|]. split; [tauto|intros _; exact V].
  - assert (NR : e_p0 r <> e_p1 r) by (intros E; apply sev_point_iff in E; congruence).
    destruct (breakpoint_dist _ _ _ _ _ _ HL HR BP) as [G0 [eps [E0 [Up Dn]]]]. unfold dist in *.
    rewrite (proj2 (pt_same_iff _ _) SL) in *.
    destruct (pt_same (e_p0 r) (e_p1 r)) eqn:T; [apply pt_same_iff in T; contradiction|].
    destruct (ps_ok l r p (proj1 HL SL) (proj2 HR NR) NR FR h eps E0 G0 Up Dn) as [v [E V]].
    exists v. split; [exact E|]. split; [intros _; exact V|tauto].
  - rewrite <- SL in *. rewrite <- SR in *. destruct (pp_ok l r p h HL HR BP) as [v [E V]]. exists v. split; [exact E|]. split; [intros _; exact V|tauto].
Qed.
