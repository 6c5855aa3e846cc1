(* The circle existence predicate accepts every circle that touches three sites in order. *)
From Coq Require Import Reals ZArith List Lia.
From Verif Require Import Base Units Outcome Scan90Spec Set90Spec GeoSpec Poly90Model VorSpec VorModel VDModel RobustSpec RobustModel
  VCircleSpec VCircleModel VCircleGeo VCircleProofs VCircleSeg.
From Coq Require Import Lra.
Import ListNotations.
Open Scope R_scope.

Lemma mul_pp x y : 0 < x -> 0 < y -> 0 < x * y.
Proof. apply Rmult_lt_0_compat. Qed.
(* ---------- points of one circle, as vectors from the centre ---------- *)
Definition oncirc (r : R) (v : rpt) : Prop := rdot v v = r * r.
Definition cwv (u v w : rpt) : Prop := (rx v - rx u) * (ry w - ry u) - (ry v - ry u) * (rx w - rx u) < 0.
Lemma cwv_cyc u v w : cwv u v w -> cwv v w u.
Proof. unfold cwv. lra. Qed.
Lemma cwv_asym u v w : cwv u v w -> cwv u w v -> False.
Proof. unfold cwv. lra. Qed.
Lemma circ_dot r u v : oncirc r u -> oncirc r v -> (rx u <> rx v \/ ry u <> ry v) -> rdot u v < r * r.
Proof.
  unfold oncirc, rdot. intros U V N.
  assert (P : 0 < (rx u - rx v) * (rx u - rx v) + (ry u - ry v) * (ry u - ry v)).
  { pose proof (sq_nonneg (rx u - rx v)) as Sx. pose proof (sq_nonneg (ry u - ry v)) as Sy.
    destruct N as [N|N].
    - assert (0 < (rx u - rx v) * (rx u - rx v)) by (apply Rsqr_pos_lt; lra). lra.
    - assert (0 < (ry u - ry v) * (ry u - ry v)) by (apply Rsqr_pos_lt; lra). lra. }
  lra.
Qed.
Lemma cwv_neq u v w : cwv u v w -> (rx u <> rx v \/ ry u <> ry v).
Proof.
  unfold cwv. intros H. destruct (Req_dec (rx u) (rx v)) as [E|N]; [|left; exact N]. destruct (Req_dec (ry u) (ry v)) as [E'|N]; [|right; exact N].
  exfalso. rewrite E, E' in H. lra.
Qed.
(* order around a point of the circle *)
Lemma cwv_trans r o a b e : oncirc r o -> oncirc r a -> oncirc r b -> oncirc r e ->
  cwv o a b -> cwv o b e -> cwv o a e.
Proof.
  intros Ho Ha Hb He H1 H2.
  assert (Pa : rdot o a < r * r) by (apply circ_dot; [exact Ho|exact Ha|apply (cwv_neq _ _ b); exact H1]).
  assert (Pb : rdot o b < r * r) by (apply circ_dot; [exact Ho|exact Hb|apply (cwv_neq _ _ e); exact H2]).
  assert (Pe : rdot o e < r * r).
  { apply circ_dot; [exact Ho|exact He|]. unfold cwv in H2. destruct (Req_dec (rx o) (rx e)) as [E|N]; [|left; exact N].
    destruct (Req_dec (ry o) (ry e)) as [E'|N]; [|right; exact N]. exfalso. rewrite E, E' in H2. lra. }
  unfold oncirc, rdot, cwv in *.
  set (ax := rx a - rx o) in *. set (ay := ry a - ry o) in *. set (bx := rx b - rx o) in *. set (by_ := ry b - ry o) in *.
  set (ex := rx e - rx o) in *. set (ey := ry e - ry o) in *.
  assert (Qa : 0 < - (ax * rx o + ay * ry o)) by (unfold ax, ay; lra).
  assert (Qb : 0 < - (bx * rx o + by_ * ry o)) by (unfold bx, by_; lra).
  assert (Qe : 0 < - (ex * rx o + ey * ry o)) by (unfold ex, ey; lra).
  assert (I : (ax * ey - ay * ex) * - (bx * rx o + by_ * ry o) =
    (ax * by_ - ay * bx) * - (ex * rx o + ey * ry o) + (bx * ey - by_ * ex) * - (ax * rx o + ay * ry o)) by ring.
  assert (N1 : 0 < (- (ax * by_ - ay * bx)) * - (ex * rx o + ey * ry o)) by (apply mul_pp; lra).
  assert (N2 : 0 < (- (bx * ey - by_ * ex)) * - (ax * rx o + ay * ry o)) by (apply mul_pp; lra).
  apply Rnot_le_lt. intros G.
  assert (0 <= (ax * ey - ay * ex) * - (bx * rx o + by_ * ry o)) by (apply Rmult_le_pos; lra). lra.
Qed.
(* four points in convex position: what is positive on one diagonal and negative
   at an end of the other is positive at its other end *)
Lemma quad_pos r a b c d fx fy : oncirc r a -> oncirc r b -> oncirc r c -> oncirc r d ->
  cwv a b c -> cwv a c d ->
  0 <= fx * rx d + fy * ry d -> 0 <= fx * rx b + fy * ry b -> 0 < fx * rx d + fy * ry d + (fx * rx b + fy * ry b) -> fx * rx a + fy * ry a <= 0 -> 0 < fx * rx c + fy * ry c.
Proof.
  intros Ha Hb Hc Hd H1 H2 Fd Fb Fbd Fa.
  assert (H3 : cwv a b d) by (apply (cwv_trans r a b c d); assumption).
  assert (H4 : cwv c d b).
  { apply (cwv_trans r c d a b); try assumption; [apply cwv_cyc; exact H2|]. apply cwv_cyc, cwv_cyc. exact H1. }
  unfold cwv in *. cbn [rx ry] in *.
  set (W1 := - ((rx d - rx c) * (ry b - ry c) - (ry d - ry c) * (rx b - rx c))) in *.
  set (W3 := - ((rx b - rx a) * (ry d - ry a) - (ry b - ry a) * (rx d - rx a))) in *.
  set (W2 := - ((rx c - rx a) * (ry d - ry a) - (ry c - ry a) * (rx d - rx a))) in *.
  set (W4 := - ((rx b - rx a) * (ry c - ry a) - (ry b - ry a) * (rx c - rx a))) in *.
  assert (0 < W1) by (unfold W1; lra). assert (0 < W2) by (unfold W2; lra). assert (0 < W3) by (unfold W3; lra). assert (0 < W4) by (unfold W4; lra).
  assert (I : W1 * (fx * rx a + fy * ry a) + W3 * (fx * rx c + fy * ry c) = W2 * (fx * rx b + fy * ry b) + W4 * (fx * rx d + fy * ry d))
    by (unfold W1, W2, W3, W4; ring).
  assert (0 < W2 * (fx * rx b + fy * ry b) + W4 * (fx * rx d + fy * ry d)).
  { destruct (Rle_lt_or_eq_dec _ _ Fb) as [K|K].
    - assert (0 < W2 * (fx * rx b + fy * ry b)) by (apply mul_pp; assumption).
      assert (0 <= W4 * (fx * rx d + fy * ry d)) by (apply Rmult_le_pos; lra). lra.
    - rewrite <- K, Rmult_0_r, Rplus_0_l. apply mul_pp; lra. }
  assert (0 <= W1 * - (fx * rx a + fy * ry a)) by (apply Rmult_le_pos; lra).
  apply Rnot_le_lt. intros G. assert (0 <= W3 * - (fx * rx c + fy * ry c)) by (apply Rmult_le_pos; lra). lra.
Qed.
(* turns around the centre *)
Lemma chord_order r u v w : 0 < r -> oncirc r u -> oncirc r v -> oncirc r w -> rcross u v < 0 -> rcross v w < 0 -> cwv u v w.
Proof.
  intros R0 Hu Hv Hw H1 H2.
  assert (Q1 : rdot u v < r * r).
  { apply circ_dot; try assumption. unfold rcross in H1. destruct (Req_dec (rx u) (rx v)) as [E|N]; [|left; exact N].
    destruct (Req_dec (ry u) (ry v)) as [E'|N]; [|right; exact N]. exfalso. rewrite E, E' in H1. lra. }
  assert (Q2 : rdot v w < r * r).
  { apply circ_dot; try assumption. unfold rcross in H2. destruct (Req_dec (rx v) (rx w)) as [E|N]; [|left; exact N].
    destruct (Req_dec (ry v) (ry w)) as [E'|N]; [|right; exact N]. exfalso. rewrite E, E' in H2. lra. }
  assert (I : (r * r) * ((rx v - rx u) * (ry w - ry u) - (ry v - ry u) * (rx w - rx u)) =
    rcross u v * (r * r - rdot v w) + rcross v w * (r * r - rdot u v)).
  { unfold oncirc in Hv. replace ((rx v - rx u) * (ry w - ry u) - (ry v - ry u) * (rx w - rx u)) with (rcross u v + rcross v w - rcross u w) by (unfold rcross; ring).
    assert (E : r * r * rcross u w = rcross u v * rdot v w + rdot u v * rcross v w) by (rewrite <- Hv; unfold rcross, rdot; ring). lra. }
  unfold cwv. apply Rnot_le_lt. intros G.
  assert (0 <= r * r * ((rx v - rx u) * (ry w - ry u) - (ry v - ry u) * (rx w - rx u))) by (apply Rmult_le_pos; [apply sq_nonneg|exact G]).
  assert (0 < (- rcross u v) * (r * r - rdot v w)) by (apply mul_pp; lra).
  assert (0 < (- rcross v w) * (r * r - rdot u v)) by (apply mul_pp; lra). lra.
Qed.
(* along an arc of at most half the circle the distance grows *)
Lemma arc_near vx vy ax ay bx by_ r : 0 < r -> vx * vx + vy * vy = r * r ->
  2 * (ax * vx + ay * vy) = - (ax * ax + ay * ay) -> 2 * (bx * vx + by_ * vy) = - (bx * bx + by_ * by_) ->
  ax * vy - ay * vx <= 0 -> ax * by_ - ay * bx < 0 -> bx * bx + by_ * by_ <= ax * ax + ay * ay.
Proof.
  intros R0 Hv Ha Hb Hs Ht.
  set (A := ax * ax + ay * ay) in *. set (B := bx * bx + by_ * by_) in *.
  set (al := - (ax * vy - ay * vx)). set (be := - (bx * vy - by_ * vx)).
  assert (PA : 0 <= A) by (unfold A; pose proof (sq_nonneg ax); pose proof (sq_nonneg ay); lra).
  assert (PB : 0 <= B) by (unfold B; pose proof (sq_nonneg bx); pose proof (sq_nonneg by_); lra).
  assert (I : 2 * (r * r) * (ax * by_ - ay * bx) = B * al - A * be).
  { rewrite <- Hv. unfold al, be. replace B with (- (2 * (bx * vx + by_ * vy))) by lra. replace A with (- (2 * (ax * vx + ay * vy))) by lra. ring. }
  assert (RR : 0 < r * r) by (apply mul_pp; assumption).
  assert (N : B * al < A * be). { assert (0 < (r * r) * - (ax * by_ - ay * bx)) by (apply mul_pp; lra). lra. }
  assert (Pal : 0 <= al) by (unfold al; lra).
  assert (Ea : al * al = A * (r * r) - A * A / 4).
  { unfold al. replace (A * A / 4) with ((ax * vx + ay * vy) * (ax * vx + ay * vy)) by (replace A with (- (2 * (ax * vx + ay * vy))) by lra; field).
    rewrite <- Hv. unfold A. ring. }
  assert (Eb : be * be = B * (r * r) - B * B / 4).
  { unfold be. replace (B * B / 4) with ((bx * vx + by_ * vy) * (bx * vx + by_ * vy)) by (replace B with (- (2 * (bx * vx + by_ * vy))) by lra; field).
    rewrite <- Hv. unfold B. ring. }
  assert (PBa : 0 <= B * al) by (apply Rmult_le_pos; assumption).
  assert (Sq : (B * al) * (B * al) < (A * be) * (A * be)) by (apply Rmult_le_0_lt_compat; assumption).
  apply Rnot_lt_le. intros G.
  assert (E1 : (B * al) * (B * al) = B * B * (A * (r * r) - A * A / 4)) by (rewrite <- Ea; ring).
  assert (E2 : (A * be) * (A * be) = A * A * (B * (r * r) - B * B / 4)) by (rewrite <- Eb; ring).
  rewrite E1, E2 in Sq.
  assert (S2 : A * B * (r * r) * (B - A) < 0) by lra.
  assert (0 <= A * B * (r * r) * (B - A)) by (repeat apply Rmult_le_pos; lra). lra.
Qed.

(* ---------- contact points ---------- *)
Lemma cw_vec c t1 t2 t3 : clockwise t1 t2 t3 <-> cwv (rsub t1 c) (rsub t2 c) (rsub t3 c).
Proof.
  unfold clockwise, cwv, rcross, rsub. cbn [rx ry].
  replace ((rx t2 - rx c - (rx t1 - rx c)) * (ry t3 - ry c - (ry t1 - ry c)) - (ry t2 - ry c - (ry t1 - ry c)) * (rx t3 - rx c - (rx t1 - rx c)))
    with ((rx t2 - rx t1) * (ry t3 - ry t1) - (ry t2 - ry t1) * (rx t3 - rx t1)) by ring. tauto.
Qed.
Lemma pt_on p c r t : meets_point p c r t -> oncirc r (rsub t c).
Proof. intros M. destruct (point_core _ _ _ _ M) as [T Q]. subst t. unfold oncirc, rdot, rsub, of_pt. cbn [rx ry]. rewrite <- Q. ring. Qed.
Lemma seg_on p q c r t : 0 < r -> meets_segment p q c r t -> between p q t ->
  oncirc r (rsub t c) /\ exists m k, 0 < m /\ 0 <= k <= 1 /\
  IZR (px q) - IZR (px p) = m * (ry t - ry c) /\ IZR (py q) - IZR (py p) = - (m * (rx t - rx c)) /\
  IZR (px p) = rx t - k * m * (ry t - ry c) /\ IZR (py p) = ry t + k * m * (rx t - rx c) /\
  IZR (px q) = rx t + (1 - k) * m * (ry t - ry c) /\ IZR (py q) = ry t - (1 - k) * m * (rx t - rx c).
Proof.
  intros R0 M [k [Hk [Bx By]]]. destruct (seg_core _ _ _ _ _ R0 M) as [L [L0 [HL [_ [_ [Tx Ty]]]]]].
  set (a := IZR (px q) - IZR (px p)) in *. set (b := IZR (py q) - IZR (py p)) in *.
  split.
  { unfold oncirc, rdot, rsub. cbn [rx ry]. rewrite Tx, Ty.
    transitivity (r * r * (a * a + b * b) / (L * L)); [field; lra|]. rewrite HL. field. lra. }
  exists (L / r), k. split; [apply Rdiv_lt_0_compat; assumption|]. split; [exact Hk|].
  assert (Ea : a = L / r * (ry t - ry c)) by (rewrite Ty; field; lra).
  assert (Eb : b = - (L / r * (rx t - rx c))) by (rewrite Tx; field; lra).
  split; [exact Ea|]. split; [exact Eb|].
  split; [rewrite Rmult_assoc, <- Ea; lra|].
  split; [replace (k * (L / r) * (rx t - rx c)) with (- (k * - (L / r * (rx t - rx c)))) by ring; rewrite <- Eb; lra|].
  split; [rewrite Rmult_assoc, <- Ea; unfold a in *; lra|].
  replace ((1 - k) * (L / r) * (rx t - rx c)) with (- ((1 - k) * - (L / r * (rx t - rx c)))) by ring. rewrite <- Eb. unfold b in *. lra.
Qed.
Lemma right_on c r : 0 < r -> oncirc r (rsub (mk_rpt (rx c + r) (ry c)) c).
Proof. intros R0. unfold oncirc, rdot, rsub. cbn [rx ry]. ring. Qed.
Lemma right3_iff p q u : right3 p q u = true <->
  (IZR (px q) - IZR (px p)) * (IZR (py u) - IZR (py p)) - (IZR (py q) - IZR (py p)) * (IZR (px u) - IZR (px p)) < 0.
Proof.
  unfold right3, orient3, xprod. rewrite Z.eqb_eq.
  replace ((IZR (px q) - IZR (px p)) * (IZR (py u) - IZR (py p)) - (IZR (py q) - IZR (py p)) * (IZR (px u) - IZR (px p)))
    with (IZR ((px p - px q) * (py q - py u) - (px q - px u) * (py p - py q))) by (izr; ring).
  split; intros H.
  - apply IZR_lt. set (z := ((px p - px q) * (py q - py u) - (px q - px u) * (py p - py q))%Z) in *. destruct z; cbn in H; lia.
  - apply lt_IZR in H. set (z := ((px p - px q) * (py q - py u) - (px q - px u) * (py p - py q))%Z) in *. destruct z; cbn; lia.
Qed.
Lemma sub_neg (A k x y : R) : A < 0 -> 0 <= k -> x <= 0 -> y = A + k * x -> y < 0.
Proof. intros HA Hk Hx ->. assert (0 <= k * - x) by (apply Rmult_le_pos; lra). lra. Qed.

Section Ex.
Variables (c : rpt) (r : R).
Hypothesis R0 : 0 < r.
Let Rt := mk_rpt (rx c + r) (ry c).

Lemma ex_ppp_ok s1 s2 s3 t1 t2 t3 : meets_point (e_p0 s1) c r t1 -> meets_point (e_p0 s2) c r t2 -> meets_point (e_p0 s3) c r t3 ->
  clockwise t1 t2 t3 -> ex_ppp s1 s2 s3 = true.
Proof.
  intros [T1 _] [T2 _] [T3 _] CW. unfold ex_ppp. apply right3_iff. subst. unfold clockwise, rcross, rsub, of_pt in CW. cbn [rx ry] in CW. lra.
Qed.
(* one of the end points of a segment that is touched to the right of p -> q is to
   the right *)
Lemma ends_right (p q : rpt) s t : meets_segment (e_p0 s) (e_p1 s) c r t -> between (e_p0 s) (e_p1 s) t -> clockwise p q t ->
  rcross (rsub q p) (rsub (of_pt (e_p0 s)) p) < 0 \/ rcross (rsub q p) (rsub (of_pt (e_p1 s)) p) < 0.
Proof.
  intros _ [k [Hk [Bx By]]] CW. unfold clockwise in CW.
  assert (E : rcross (rsub q p) (rsub t p) = (1 - k) * rcross (rsub q p) (rsub (of_pt (e_p0 s)) p) + k * rcross (rsub q p) (rsub (of_pt (e_p1 s)) p)).
  { unfold rcross, rsub, of_pt. cbn [rx ry]. rewrite Bx, By. ring. }
  destruct (Rlt_dec (rcross (rsub q p) (rsub (of_pt (e_p0 s)) p)) 0) as [H|H]; [left; exact H|right].
  apply Rnot_le_lt. intros G.
  assert (0 <= (1 - k) * rcross (rsub q p) (rsub (of_pt (e_p0 s)) p)) by (apply Rmult_le_pos; lra).
  assert (0 <= k * rcross (rsub q p) (rsub (of_pt (e_p1 s)) p)) by (apply Rmult_le_pos; lra). lra.
Qed.
Lemma right3_pt p q u P Q : P = of_pt p -> Q = of_pt q -> right3 p q u = true <-> rcross (rsub Q P) (rsub (of_pt u) P) < 0.
Proof. intros -> ->. rewrite right3_iff. unfold rcross, rsub, of_pt. cbn [rx ry]. tauto. Qed.
(* point, point, segment *)
Lemma ex_pps3_ok s1 s2 s3 t1 t2 t3 : meets_point (e_p0 s1) c r t1 -> meets_point (e_p0 s2) c r t2 ->
  meets_segment (e_p0 s3) (e_p1 s3) c r t3 -> between (e_p0 s3) (e_p1 s3) t3 -> from_right c r t1 t2 t3 -> ex_pps s1 s2 s3 3 = true.
Proof.
  intros M1 M2 M3 B3 [CW RT]. unfold ex_pps. cbn [Z.eqb Pos.eqb negb andb].
  assert (G : right3 (e_p0 s1) (e_p0 s2) (e_p0 s3) || right3 (e_p0 s1) (e_p0 s2) (e_p1 s3) = true).
  { destruct M1 as [T1 _]. destruct M2 as [T2 _]. apply orb_true_iff. rewrite !(right3_pt _ _ _ _ _ T1 T2). apply (ends_right t1 t2 s3 t3); assumption. }
  destruct (sx0 s2 >=? sx0 s1)%Z eqn:GE; [|exact G].
  pose proof M1 as [T1 _]. pose proof M2 as [T2 _]. apply (right3_pt _ _ _ _ _ T1 T2).
  destruct (seg_on _ _ _ _ _ R0 M3 B3) as [O3 [m [k [Hm [Hk [_ [_ [_ [_ [Qx Qy]]]]]]]]]].
  pose proof (pt_on _ _ _ _ M1) as O1. pose proof (pt_on _ _ _ _ M2) as O2. pose proof (right_on c r R0) as OR.
  assert (Hx : rx t1 <= rx t2). { subst t1 t2. cbn [of_pt rx]. apply IZR_le. unfold sx0 in GE. lia. }
  pose proof CW as CWv. apply (cw_vec c) in CWv.
  assert (F : 0 < rdot (rsub t2 t1) (rsub t3 c)).
  { assert (P2 : rdot (rsub t1 c) (rsub t2 c) < r * r) by (apply circ_dot; [exact O1|exact O2|apply (cwv_neq _ _ (rsub t3 c)); exact CWv]).
    unfold oncirc, rdot, rsub in *. cbn [rx ry] in *.
    destruct RT as [E|RT].
    - exfalso. rewrite E in *. cbn [rx ry] in *. assert (rx c + r - rx c = r) as Er by ring. rewrite Er in *.
      assert (0 <= r * (rx t2 - rx c - r)) by (apply Rmult_le_pos; lra). lra.
    - apply (cw_vec c) in RT.
      pose proof (quad_pos r (rsub t1 c) (rsub t2 c) (rsub t3 c) (rsub Rt c) (rx t2 - rx t1) (ry t2 - ry t1) O1 O2 O3 OR CWv) as QP.
      unfold rsub in QP. cbn [rx ry] in QP. apply QP.
      + apply cwv_cyc, cwv_cyc. exact RT.
      + replace ((rx t2 - rx t1) * (rx Rt - rx c) + (ry t2 - ry t1) * (ry Rt - ry c)) with ((rx t2 - rx t1) * r) by (unfold Rt; cbn [rx ry]; ring).
        apply Rmult_le_pos; lra.
      + lra.
      + replace ((rx t2 - rx t1) * (rx Rt - rx c) + (ry t2 - ry t1) * (ry Rt - ry c)) with ((rx t2 - rx t1) * r) by (unfold Rt; cbn [rx ry]; ring).
        assert (0 <= (rx t2 - rx t1) * r) by (apply Rmult_le_pos; lra). lra.
      + lra. }
  unfold clockwise in CW.
  apply (sub_neg (rcross (rsub t2 t1) (rsub t3 t1)) ((1 - k) * m) (- rdot (rsub t2 t1) (rsub t3 c))); [exact CW|apply Rmult_le_pos; lra|lra|].
  unfold rcross, rdot, rsub, of_pt. cbn [rx ry]. rewrite Qx, Qy. ring.
Qed.
(* segment, point, point *)
Lemma ex_pps1_ok s1 s2 s3 t1 t2 t3 : meets_point (e_p0 s1) c r t1 -> meets_point (e_p0 s2) c r t2 ->
  meets_segment (e_p0 s3) (e_p1 s3) c r t3 -> between (e_p0 s3) (e_p1 s3) t3 -> from_right c r t3 t1 t2 -> ex_pps s1 s2 s3 1 = true.
Proof.
  intros M1 M2 M3 B3 [CW0 RT]. unfold ex_pps. cbn [Z.eqb Pos.eqb negb andb].
  assert (CW : clockwise t1 t2 t3) by (apply (cw_vec c); apply (cw_vec c) in CW0; apply cwv_cyc; exact CW0).
  assert (G : right3 (e_p0 s1) (e_p0 s2) (e_p0 s3) || right3 (e_p0 s1) (e_p0 s2) (e_p1 s3) = true).
  { destruct M1 as [T1 _]. destruct M2 as [T2 _]. apply orb_true_iff. rewrite !(right3_pt _ _ _ _ _ T1 T2). apply (ends_right t1 t2 s3 t3); assumption. }
  destruct (sx0 s1 >=? sx0 s2)%Z eqn:GE; [|exact G].
  pose proof M1 as [T1 _]. pose proof M2 as [T2 _]. apply (right3_pt _ _ _ _ _ T1 T2).
  destruct (seg_on _ _ _ _ _ R0 M3 B3) as [O3 [m [k [Hm [Hk [_ [_ [Px [Py _]]]]]]]]].
  pose proof (pt_on _ _ _ _ M1) as O1. pose proof (pt_on _ _ _ _ M2) as O2. pose proof (right_on c r R0) as OR.
  assert (Hx : rx t2 <= rx t1). { subst t1 t2. cbn [of_pt rx]. apply IZR_le. unfold sx0 in GE. lia. }
  pose proof CW as CWv. apply (cw_vec c) in CWv.
  assert (F : 0 <= rdot (rsub t1 t2) (rsub t3 c)).
  { assert (P2 : rdot (rsub t1 c) (rsub t2 c) < r * r) by (apply circ_dot; [exact O1|exact O2|apply (cwv_neq _ _ (rsub t3 c)); exact CWv]).
    destruct RT as [E|RT].
    - rewrite E. unfold rdot, rsub. cbn [rx ry]. replace ((rx t1 - rx t2) * (rx c + r - rx c) + (ry t1 - ry t2) * (ry c - ry c)) with ((rx t1 - rx t2) * r) by ring.
      apply Rmult_le_pos; lra.
    - apply (cw_vec c) in RT. apply Rlt_le.
      (* R, t3, t1, t2 *)
      pose proof (quad_pos r (rsub t2 c) (rsub Rt c) (rsub t3 c) (rsub t1 c) (rx t1 - rx t2) (ry t1 - ry t2) O2 OR O3 O1) as QP.
      unfold oncirc, rdot, rsub in *. cbn [rx ry] in *.
      assert (Q0 : 0 <= (rx t1 - rx t2) * r) by (apply Rmult_le_pos; lra).
      assert (ER : (rx t1 - rx t2) * (rx Rt - rx c) + (ry t1 - ry t2) * (ry Rt - ry c) = (rx t1 - rx t2) * r) by (unfold Rt; cbn [rx ry]; ring).
      apply QP; [exact RT|apply cwv_cyc; exact CWv|lra|lra|lra|lra]. }
  unfold clockwise in CW.
  apply (sub_neg (rcross (rsub t2 t1) (rsub t3 t1)) (k * m) (- rdot (rsub t1 t2) (rsub t3 c))); [exact CW|apply Rmult_le_pos; lra|lra|].
  unfold rcross, rdot, rsub, of_pt. cbn [rx ry]. rewrite Px, Py. ring.
Qed.
(* point, segment, point *)
Lemma ex_pps2_ok s1 s2 s3 t1 t2 t3 : meets_point (e_p0 s1) c r t1 -> meets_point (e_p0 s2) c r t2 ->
  meets_segment (e_p0 s3) (e_p1 s3) c r t3 -> between (e_p0 s3) (e_p1 s3) t3 -> ex_pps s1 s2 s3 2 = true.
Proof.
  intros M1 M2 M3 B3. unfold ex_pps. cbn [Z.eqb Pos.eqb negb].
  destruct (pt_same (e_p0 s3) (e_p0 s1)) eqn:E1; [|reflexivity]. destruct (pt_same (e_p1 s3) (e_p0 s2)) eqn:E2; [|reflexivity]. exfalso.
  unfold pt_same in E1, E2. apply andb_prop in E1. apply andb_prop in E2. destruct E1 as [X1 Y1], E2 as [X2 Y2].
  apply Z.eqb_eq in X1. apply Z.eqb_eq in Y1. apply Z.eqb_eq in X2. apply Z.eqb_eq in Y2.
  destruct (seg_on _ _ _ _ _ R0 M3 B3) as [O3 [m [k [Hm [Hk [_ [_ [Px [Py [Qx Qy]]]]]]]]]].
  destruct (point_core _ _ _ _ M1) as [_ D1]. destruct (point_core _ _ _ _ M2) as [_ D2].
  rewrite <- X1, <- Y1, Px, Py in D1. rewrite <- X2, <- Y2, Qx, Qy in D2.
  unfold oncirc, rdot, rsub in O3. cbn [rx ry] in O3.
  set (vx := rx t3 - rx c) in *. set (vy := ry t3 - ry c) in *.
  assert (RR : 0 < r * r) by (apply mul_pp; assumption).
  assert (Z1 : k * m * (k * m) * (r * r) = 0).
  { rewrite <- O3. transitivity (r * r - (vx * vx + vy * vy)); [|lra]. rewrite <- D1. unfold vx, vy. ring. }
  assert (Z2 : (1 - k) * m * ((1 - k) * m) * (r * r) = 0).
  { rewrite <- O3. transitivity (r * r - (vx * vx + vy * vy)); [|lra]. rewrite <- D2. unfold vx, vy. ring. }
  assert (K1 : k * m = 0) by (apply Rmult_integral in Z1; destruct Z1 as [Z1|Z1]; [apply Rmult_integral in Z1; tauto|lra]).
  assert (K2 : (1 - k) * m = 0) by (apply Rmult_integral in Z2; destruct Z2 as [Z2|Z2]; [apply Rmult_integral in Z2; tauto|lra]). lra.
Qed.
(* two contacts with one segment are one contact *)
Lemma one_contact p q p' q' t t' : meets_segment p q c r t -> meets_segment p' q' c r t' -> one_segment p q p' q' -> t = t'.
Proof.
  intros M M' [[-> ->]|[-> ->]].
  - destruct (seg_core _ _ _ _ _ R0 M) as [L [L0 [HL [_ [_ [Tx Ty]]]]]]. destruct (seg_core _ _ _ _ _ R0 M') as [L' [L0' [HL' [_ [_ [Tx' Ty']]]]]].
    assert (L = L') as <-. { apply sq_eq_pos; [rewrite <- HL; exact HL'|lra|lra]. }
    destruct t as [u w], t' as [u' w']. cbn [rx ry] in *. subst. reflexivity.
  - exfalso. destruct M as [_ [_ [_ [_ S]]]]. destruct M' as [_ [_ [_ [_ S']]]]. unfold rcross, rsub, of_pt in *. cbn [rx ry] in *. lra.
Qed.
Lemma cw_diff t1 t2 t3 : clockwise t1 t2 t3 -> t1 <> t2 /\ t2 <> t3 /\ t1 <> t3.
Proof. unfold clockwise, rcross, rsub. cbn [rx ry]. intros H. repeat split; intros ->; lra. Qed.
Lemma apart_index s s' t t' : meets_segment (e_p0 s) (e_p1 s) c r t -> meets_segment (e_p0 s') (e_p1 s') c r t' -> t <> t' ->
  (e_sorted s = e_sorted s' -> one_segment (e_p0 s) (e_p1 s) (e_p0 s') (e_p1 s')) -> Nat.eqb (e_sorted s) (e_sorted s') = false.
Proof. intros M M' N H. apply Nat.eqb_neq. intros E. apply N. exact (one_contact _ _ _ _ _ _ M M' (H E)). Qed.
Lemma ex_pss13_ok s1 s2 s3 t2 t3 i : (i =? 2)%Z = false -> meets_segment (e_p0 s2) (e_p1 s2) c r t2 -> meets_segment (e_p0 s3) (e_p1 s3) c r t3 ->
  t2 <> t3 -> (e_sorted s2 = e_sorted s3 -> one_segment (e_p0 s2) (e_p1 s2) (e_p0 s3) (e_p1 s3)) -> ex_pss s1 s2 s3 i = true.
Proof. intros I M2 M3 N H. unfold ex_pss. rewrite (apart_index _ _ _ _ M2 M3 N H), I. reflexivity. Qed.
Lemma ex_sss_ok s1 s2 s3 t1 t2 t3 : meets_segment (e_p0 s1) (e_p1 s1) c r t1 -> meets_segment (e_p0 s2) (e_p1 s2) c r t2 ->
  meets_segment (e_p0 s3) (e_p1 s3) c r t3 -> clockwise t1 t2 t3 ->
  (e_sorted s1 = e_sorted s2 -> one_segment (e_p0 s1) (e_p1 s1) (e_p0 s2) (e_p1 s2)) ->
  (e_sorted s2 = e_sorted s3 -> one_segment (e_p0 s2) (e_p1 s2) (e_p0 s3) (e_p1 s3)) -> ex_sss s1 s2 s3 = true.
Proof.
  intros M1 M2 M3 CW H1 H2. apply cw_diff in CW. destruct CW as [N1 [N2 _]]. unfold ex_sss.
  rewrite (apart_index _ _ _ _ M1 M2 N1 H1), (apart_index _ _ _ _ M2 M3 N2 H2). reflexivity.
Qed.
(* the direction of a segment and the half of the circle that touches it *)
Lemma half s t : meets_segment (e_p0 s) (e_p1 s) c r t -> between (e_p0 s) (e_p1 s) t -> flagged (e_p0 s) (e_p1 s) (e_inv s) ->
  if e_inv s then ry t - ry c < 0 \/ (ry t - ry c = 0 /\ rx t - rx c = r) else 0 < ry t - ry c \/ (ry t - ry c = 0 /\ rx t - rx c = - r).
Proof.
  intros M B F. destruct (seg_on _ _ _ _ _ R0 M B) as [O [m [k [Hm [Hk [Dx [Dy _]]]]]]].
  assert (N : e_p0 s <> e_p1 s). { intros E. destruct M as [NE _]. apply NE. rewrite E. reflexivity. }
  specialize (F N). unfold oncirc, rdot, rsub in O. cbn [rx ry] in O.
  set (vx := rx t - rx c) in *. set (vy := ry t - ry c) in *.
  assert (Z : forall w, m * w = 0 -> w = 0) by (intros w H; apply Rmult_integral in H; destruct H; lra).
  destruct (e_inv s); destruct F as [F|[F1 F2]].
  - left. apply IZR_lt in F. apply Rnot_le_lt. intros G. assert (0 <= m * vy) by (apply Rmult_le_pos; lra). lra.
  - right. assert (V : vy = 0) by (apply Z; rewrite <- Dx, F1; ring). split; [exact V|].
    rewrite V in O. apply IZR_lt in F2. apply sq_eq_pos; [lra| |lra].
    apply Rnot_lt_le. intros G. assert (0 < m * - vx) by (apply mul_pp; lra). lra.
  - left. apply IZR_lt in F. apply Rnot_le_lt. intros G. assert (0 <= m * - vy) by (apply Rmult_le_pos; lra). lra.
  - right. assert (V : vy = 0) by (apply Z; rewrite <- Dx, F1; ring). split; [exact V|].
    rewrite V in O. apply IZR_lt in F2. cut (- vx = r); [lra|]. apply sq_eq_pos; [lra| |lra].
    apply Rnot_lt_le. intros G. assert (0 < m * vx) by (apply mul_pp; lra). lra.
Qed.
(* segment, point, segment *)
Lemma ex_pss2_ok s1 s2 s3 t1 t2 t3 : meets_point (e_p0 s1) c r t1 ->
  meets_segment (e_p0 s2) (e_p1 s2) c r t2 -> between (e_p0 s2) (e_p1 s2) t2 -> flagged (e_p0 s2) (e_p1 s2) (e_inv s2) ->
  meets_segment (e_p0 s3) (e_p1 s3) c r t3 -> between (e_p0 s3) (e_p1 s3) t3 -> flagged (e_p0 s3) (e_p1 s3) (e_inv s3) ->
  (e_sorted s2 = e_sorted s3 -> one_segment (e_p0 s2) (e_p1 s2) (e_p0 s3) (e_p1 s3)) ->
  from_right c r t2 t1 t3 -> ex_pss s1 s2 s3 2 = true.
Proof.
  intros M1 M2 B2 F2 M3 B3 F3 H [CW RT]. pose proof (cw_diff _ _ _ CW) as [N21 [N13 N23]].
  unfold ex_pss. rewrite (apart_index _ _ _ _ M2 M3 N23 H). cbn [Z.eqb Pos.eqb].
  pose proof (half _ _ M2 B2 F2) as U2. pose proof (half _ _ M3 B3 F3) as U3.
  destruct (seg_on _ _ _ _ _ R0 M2 B2) as [O2 [m2 [k2 [Hm2 [Hk2 [_ [_ [P2x [P2y _]]]]]]]]].
  destruct (seg_on _ _ _ _ _ R0 M3 B3) as [O3 [m3 [k3 [Hm3 [Hk3 [_ [_ [_ [_ [Q3x Q3y]]]]]]]]]].
  pose proof (pt_on _ _ _ _ M1) as O1. pose proof (right_on c r R0) as OR. fold Rt in OR. fold Rt in RT.
  set (v1 := rsub t1 c) in *. set (v2 := rsub t2 c) in *. set (v3 := rsub t3 c) in *. set (vr := rsub Rt c) in *.
  assert (Vr : rx vr = r /\ ry vr = 0) by (unfold vr, Rt, rsub; cbn [rx ry]; split; ring). destruct Vr as [Vrx Vry].
  change (ry t2 - ry c) with (ry v2) in *. change (rx t2 - rx c) with (rx v2) in *.
  change (ry t3 - ry c) with (ry v3) in *. change (rx t3 - rx c) with (rx v3) in *.
  pose proof CW as CWv. apply (cw_vec c) in CWv. fold v1 v2 v3 in CWv.
  assert (RTv : (rx v2 = r /\ ry v2 = 0) \/ cwv v3 vr v2).
  { destruct RT as [E|RT]; [left; unfold v2; rewrite E; unfold Rt, rsub; cbn [rx ry]; split; ring|right; apply (cw_vec c) in RT; exact RT]. }
  assert (N3 : rx v3 = r /\ ry v3 = 0 -> False).
  { intros [E1 E2]. destruct RTv as [[E3 E4]|RTv].
    - unfold cwv in CWv. rewrite E1, E2, E3, E4 in CWv. lra.
    - unfold cwv in RTv. rewrite E1, E2, Vrx, Vry in RTv. lra. }
  assert (Bx : forall v, oncirc r v -> rx v <= r).
  { intros v O. unfold oncirc, rdot in O. apply Rsqr_incr_0_var; [unfold Rsqr; pose proof (sq_nonneg (ry v)); lra|lra]. }
  assert (G1 : negb (e_inv s2) && e_inv s3 = false).
  { destruct (e_inv s2) eqn:I2; [reflexivity|]. destruct (e_inv s3) eqn:I3; [|reflexivity]. exfalso.
    destruct U3 as [U3|[U3 U3']]; [|apply N3; auto].
    destruct RTv as [[E3 E4]|RTv]; [destruct U2 as [U2|[U2 U2']]; lra|].
    unfold cwv in RTv. rewrite Vrx, Vry in RTv.
    pose proof (Bx _ O3) as X3. pose proof (Bx _ O2) as X2.
    assert (Y2 : 0 <= ry v2) by (destruct U2 as [U2|[U2 _]]; lra).
    assert (A : 0 <= (r - rx v2) * - ry v3) by (apply Rmult_le_pos; lra).
    assert (A' : 0 <= ry v2 * (r - rx v3)) by (apply Rmult_le_pos; lra). lra. }
  rewrite G1. destruct (Bool.eqb (e_inv s2) (e_inv s3)) eqn:EI; [|reflexivity]. apply Bool.eqb_prop in EI. cbn [andb].
  enough (G : right3 (e_p0 s2) (e_p0 s1) (e_p1 s3) = true) by (rewrite G; reflexivity).
  (* at most half the circle *)
  assert (X : rcross v2 v3 <= 0).
  { apply Rnot_lt_le. intros X. assert (X' : rcross v3 v2 < 0) by (unfold rcross in *; lra).
    rewrite EI in U2. destruct (e_inv s3).
    - destruct U3 as [U3|U3]; [|apply N3; tauto].
      destruct RTv as [[E3 E4]|RTv].
      + unfold rcross in X. rewrite E3, E4 in X. assert (0 < r * - ry v3) by (apply mul_pp; lra). lra.
      + apply (cwv_asym v3 vr v2); [exact RTv|]. apply cwv_cyc. apply (chord_order r); try assumption.
        unfold rcross. rewrite Vrx, Vry. assert (0 < r * - ry v3) by (apply mul_pp; lra). lra.
    - destruct RTv as [[E3 E4]|RTv]; [destruct U2 as [U2|[U2 U2']]; lra|].
      destruct U2 as [U2|[U2 U2']].
      + apply (cwv_asym v3 vr v2); [exact RTv|]. apply (chord_order r); try assumption.
        unfold rcross. rewrite Vrx, Vry. assert (0 < r * ry v2) by (apply mul_pp; lra). lra.
      + unfold rcross in X. rewrite U2, U2' in X. assert (0 <= ry v3) by (destruct U3 as [U3|[U3 _]]; lra).
        assert (0 <= r * ry v3) by (apply Rmult_le_pos; lra). lra. }
  (* the point is nearer to either contact *)
  unfold oncirc, rdot in O1, O2, O3. unfold rcross in X. unfold cwv in CWv.
  assert (D3 : rdot v2 v3 <= rdot v1 v3).
  { pose proof (arc_near (rx v3) (ry v3) (rx v2 - rx v3) (ry v2 - ry v3) (rx v1 - rx v3) (ry v1 - ry v3) r R0 O3) as A.
    unfold rdot. assert (Q : (rx v1 - rx v3) * (rx v1 - rx v3) + (ry v1 - ry v3) * (ry v1 - ry v3) <= (rx v2 - rx v3) * (rx v2 - rx v3) + (ry v2 - ry v3) * (ry v2 - ry v3)) by (apply A; lra). lra. }
  assert (D2 : rdot v3 v2 <= rdot v1 v2).
  { pose proof (arc_near (rx v2) (- ry v2) (rx v3 - rx v2) (- (ry v3 - ry v2)) (rx v1 - rx v2) (- (ry v1 - ry v2)) r R0) as A.
    unfold rdot. assert (Q : (rx v1 - rx v2) * (rx v1 - rx v2) + - (ry v1 - ry v2) * - (ry v1 - ry v2) <= (rx v3 - rx v2) * (rx v3 - rx v2) + - (ry v3 - ry v2) * - (ry v3 - ry v2)) by (apply A; lra). lra. }
  apply right3_iff. rewrite P2x, P2y, Q3x, Q3y. destruct M1 as [T1 _].
  replace (IZR (px (e_p0 s1))) with (rx t1) by (rewrite T1; reflexivity). replace (IZR (py (e_p0 s1))) with (ry t1) by (rewrite T1; reflexivity).
  assert (E1x : rx t1 = rx v1 + rx c) by (unfold v1, rsub; cbn [rx]; ring). assert (E1y : ry t1 = ry v1 + ry c) by (unfold v1, rsub; cbn [ry]; ring).
  assert (E2x : rx t2 = rx v2 + rx c) by (unfold v2, rsub; cbn [rx]; ring). assert (E2y : ry t2 = ry v2 + ry c) by (unfold v2, rsub; cbn [ry]; ring).
  assert (E3x : rx t3 = rx v3 + rx c) by (unfold v3, rsub; cbn [rx]; ring). assert (E3y : ry t3 = ry v3 + ry c) by (unfold v3, rsub; cbn [ry]; ring).
  rewrite E1x, E1y, E2x, E2y, E3x, E3y. clearbody v1 v2 v3 vr.
  set (l := k2 * m2). set (n := (1 - k3) * m3).
  assert (Pl : 0 <= l) by (apply Rmult_le_pos; lra). assert (Pn : 0 <= n) by (apply Rmult_le_pos; lra).
  match goal with |- ?g < 0 => replace g with (((rx v1 - rx v2) * (ry v3 - ry v2) - (ry v1 - ry v2) * (rx v3 - rx v2))
    + n * (rdot v2 v3 - rdot v1 v3) + l * (rdot v3 v2 - rdot v1 v2) + l * n * (rx v2 * ry v3 - ry v2 * rx v3)) by (unfold rdot; ring) end.
  assert (0 <= n * (rdot v1 v3 - rdot v2 v3)) by (apply Rmult_le_pos; lra).
  assert (0 <= l * (rdot v1 v2 - rdot v3 v2)) by (apply Rmult_le_pos; lra).
  assert (0 <= l * n * - (rx v2 * ry v3 - ry v2 * rx v3)) by (repeat apply Rmult_le_pos; lra). lra.
Qed.
End Ex.

(* ---------- the predicate ---------- *)
Lemma not_outside less more c r s t : 0 < r -> (forall x y, less x y = true -> x < y) -> (forall x y, more x y = true -> y < x) ->
  touches (e_p0 s) (e_p1 s) c r t -> flagged (e_p0 s) (e_p1 s) (e_inv s) -> outside_vertical less more (event_of c r) s = false.
Proof.
  intros R0 HL HM [M B] F. unfold outside_vertical. destruct (sev_segment s) eqn:S; [|reflexivity]. destruct (sev_vertical s) eqn:V; [|reflexivity].
  cbn [negb orb]. pose proof (meets_seg_inv _ _ _ _ S M) as MS. unfold sev_vertical in V. apply Z.eqb_eq in V.
  destruct (seg_on _ _ _ _ _ R0 MS B) as [_ [m [k [Hm [_ [Dx _]]]]]]. rewrite V in Dx.
  assert (ry t - ry c = 0) as Ey. { replace (IZR (px (e_p1 s)) - IZR (px (e_p1 s))) with 0 in Dx by ring. symmetry in Dx. apply Rmult_integral in Dx. destruct Dx; lra. }
  destruct B as [k' [Hk [_ By]]].
  assert (N : e_p0 s <> e_p1 s). { intros E. destruct MS as [NE _]. apply NE. rewrite E. reflexivity. }
  specialize (F N). unfold event_of, sy0, sy1. cbn [ev_y].
  apply orb_false_iff. split; [destruct (less _ _) eqn:Q; [exfalso; apply HL in Q|reflexivity]|destruct (more _ _) eqn:Q; [exfalso; apply HM in Q|reflexivity]].
  - destruct (e_inv s); destruct F as [F|[_ F]]; try lia; apply IZR_lt in F.
    + assert (0 <= (1 - k') * (IZR (py (e_p0 s)) - IZR (py (e_p1 s)))) by (apply Rmult_le_pos; lra). lra.
    + assert (0 <= k' * (IZR (py (e_p1 s)) - IZR (py (e_p0 s)))) by (apply Rmult_le_pos; lra). lra.
  - destruct (e_inv s); destruct F as [F|[_ F]]; try lia; apply IZR_lt in F.
    + assert (0 <= k' * (IZR (py (e_p0 s)) - IZR (py (e_p1 s)))) by (apply Rmult_le_pos; lra). lra.
    + assert (0 <= (1 - k') * (IZR (py (e_p1 s)) - IZR (py (e_p0 s)))) by (apply Rmult_le_pos; lra). lra.
Qed.
Lemma formation_ok less more fx fy fl s1 s2 s3 c r t1 t2 t3 :
  0 < r -> (forall x y, less x y = true -> x < y) -> (forall x y, more x y = true -> y < x) ->
  flagged (e_p0 s1) (e_p1 s1) (e_inv s1) -> flagged (e_p0 s2) (e_p1 s2) (e_inv s2) -> flagged (e_p0 s3) (e_p1 s3) (e_inv s3) ->
  (e_sorted s1 = e_sorted s2 -> one_segment (e_p0 s1) (e_p1 s1) (e_p0 s2) (e_p1 s2)) ->
  (e_sorted s2 = e_sorted s3 -> one_segment (e_p0 s2) (e_p1 s2) (e_p0 s3) (e_p1 s3)) ->
  (e_sorted s1 = e_sorted s3 -> one_segment (e_p0 s1) (e_p1 s1) (e_p0 s3) (e_p1 s3)) ->
  touches (e_p0 s1) (e_p1 s1) c r t1 -> touches (e_p0 s2) (e_p1 s2) c r t2 -> touches (e_p0 s3) (e_p1 s3) c r t3 ->
  from_right c r t1 t2 t3 -> circle_formation less more fx fy fl s1 s2 s3 = Some (Some (event_of c r)).
Proof.
  intros R0 HL HM F1 F2 F3 I12 I23 I13 T1 T2 T3 FR.
  pose proof (not_outside less more c r s1 t1 R0 HL HM T1 F1) as O1.
  pose proof (not_outside less more c r s2 t2 R0 HL HM T2 F2) as O2.
  pose proof (not_outside less more c r s3 t3 R0 HL HM T3 F3) as O3.
  destruct T1 as [M1 B1], T2 as [M2 B2], T3 as [M3 B3]. pose proof FR as [CW _].
  assert (CW2 : clockwise t2 t3 t1) by (apply (cw_vec c); apply (cw_vec c) in CW; apply cwv_cyc; exact CW).
  assert (CW3 : clockwise t3 t1 t2) by (apply (cw_vec c); apply (cw_vec c) in CW2; apply cwv_cyc; exact CW2).
  pose proof (cw_diff _ _ _ CW) as [N12 [N23 N13]].
  unfold circle_formation.
  destruct (sev_segment s1) eqn:S1; [apply (meets_seg_inv _ _ _ _ S1) in M1|apply (meets_pt_inv _ _ _ _ S1) in M1];
  (destruct (sev_segment s2) eqn:S2; [apply (meets_seg_inv _ _ _ _ S2) in M2|apply (meets_pt_inv _ _ _ _ S2) in M2]);
  (destruct (sev_segment s3) eqn:S3; [apply (meets_seg_inv _ _ _ _ S3) in M3|apply (meets_pt_inv _ _ _ _ S3) in M3]); cbn [negb].
  - rewrite (ex_sss_ok c r R0 s1 s2 s3 t1 t2 t3 M1 M2 M3 CW I12 I23), (lazy_sss_ok s1 s2 s3 c r t1 t2 t3 R0 M1 M2 M3 CW). cbn [negb bind]. rewrite O1, O2, O3. reflexivity.
  - rewrite (ex_pss13_ok c r R0 s3 s1 s2 t1 t2 3 eq_refl M1 M2 N12 I12), (lazy_pss_ok s3 s1 s2 3 c r t3 t1 t2 R0 M3 M1 M2 CW3). cbn [negb bind]. rewrite O1, O2, O3. reflexivity.
  - rewrite (ex_pss2_ok c r R0 s2 s1 s3 t2 t1 t3 M2 M1 B1 F1 M3 B3 F3 I13 FR), (lazy_pss_ok s2 s1 s3 2 c r t2 t1 t3 R0 M2 M1 M3 CW). cbn [negb bind]. rewrite O1, O2, O3. reflexivity.
  - rewrite (ex_pps1_ok c r R0 s2 s3 s1 t2 t3 t1 M2 M3 M1 B1 FR), (lazy_pps_ok s2 s3 s1 1 c r t2 t3 t1 R0 M2 M3 M1 CW2). cbn [negb bind]. rewrite O1, O2, O3. reflexivity.
  - rewrite (ex_pss13_ok c r R0 s1 s2 s3 t2 t3 1 eq_refl M2 M3 N23 I23), (lazy_pss_ok s1 s2 s3 1 c r t1 t2 t3 R0 M1 M2 M3 CW). cbn [negb bind]. rewrite O1, O2, O3. reflexivity.
  - rewrite (ex_pps2_ok c r R0 s1 s3 s2 t1 t3 t2 M1 M3 M2 B2), (lazy_pps_ok s1 s3 s2 2 c r t1 t3 t2 R0 M1 M3 M2 CW). cbn [negb bind]. rewrite O1, O2, O3. reflexivity.
  - rewrite (ex_pps3_ok c r R0 s1 s2 s3 t1 t2 t3 M1 M2 M3 B3 FR), (lazy_pps_ok s1 s2 s3 3 c r t1 t2 t3 R0 M1 M2 M3 CW). cbn [negb bind]. rewrite O1, O2, O3. reflexivity.
  - rewrite (ex_ppp_ok c r s1 s2 s3 t1 t2 t3 M1 M2 M3 CW), (lazy_ppp_ok s1 s2 s3 c r t1 t2 t3 R0 M1 M2 M3 CW). cbn [negb bind]. rewrite O1, O2, O3. reflexivity.
Qed.
(* three points: a circle is found exactly when they turn right *)
Lemma three_points less more fx fy fl s1 s2 s3 : sev_segment s1 = false -> sev_segment s2 = false -> sev_segment s3 = false ->
  (clockwise (of_pt (e_p0 s1)) (of_pt (e_p0 s2)) (of_pt (e_p0 s3)) ->
    exists c r, 0 < r /\ meets_point (e_p0 s1) c r (of_pt (e_p0 s1)) /\ meets_point (e_p0 s2) c r (of_pt (e_p0 s2)) /\ meets_point (e_p0 s3) c r (of_pt (e_p0 s3)) /\
      circle_formation less more fx fy fl s1 s2 s3 = Some (Some (event_of c r))) /\
  (~ clockwise (of_pt (e_p0 s1)) (of_pt (e_p0 s2)) (of_pt (e_p0 s3)) -> circle_formation less more fx fy fl s1 s2 s3 = Some None).
Proof.
  intros S1 S2 S3.
  assert (EX : ex_ppp s1 s2 s3 = true <-> clockwise (of_pt (e_p0 s1)) (of_pt (e_p0 s2)) (of_pt (e_p0 s3))).
  { unfold ex_ppp. rewrite right3_iff. unfold clockwise, rcross, rsub, of_pt. cbn [rx ry]. tauto. }
  assert (OV : forall e, outside_vertical less more e s1 || outside_vertical less more e s2 || outside_vertical less more e s3 = false).
  { intros e. unfold outside_vertical. rewrite S1, S2, S3. reflexivity. }
  split; intros CW.
  - pose proof CW as D. unfold clockwise, rcross, rsub, of_pt in D. cbn [rx ry] in D.
    set (x1 := IZR (px (e_p0 s1))) in *. set (y1 := IZR (py (e_p0 s1))) in *. set (x2 := IZR (px (e_p0 s2))) in *. set (y2 := IZR (py (e_p0 s2))) in *.
    set (x3 := IZR (px (e_p0 s3))) in *. set (y3 := IZR (py (e_p0 s3))) in *.
    set (d := (x2 - x1) * (y3 - y1) - (y2 - y1) * (x3 - x1)) in *.
    set (p := (x2 - x1) * (x2 - x1) + (y2 - y1) * (y2 - y1)). set (q := (x3 - x1) * (x3 - x1) + (y3 - y1) * (y3 - y1)).
    set (ux := (p * (y3 - y1) - q * (y2 - y1)) / (2 * d)). set (uy := (q * (x2 - x1) - p * (x3 - x1)) / (2 * d)).
    set (c := mk_rpt (x1 + ux) (y1 + uy)). set (r := sqrt (ux * ux + uy * uy)).
    assert (H2 : 2 * (ux * (x2 - x1) + uy * (y2 - y1)) = p). { unfold ux, uy. transitivity (p * d / d); [unfold d; field; unfold d in D; lra|field; lra]. }
    assert (H3 : 2 * (ux * (x3 - x1) + uy * (y3 - y1)) = q). { unfold ux, uy. transitivity (q * d / d); [unfold d; field; unfold d in D; lra|field; lra]. }
    assert (PP : 0 < ux * ux + uy * uy).
    { assert (G : 0 <= ux * ux + uy * uy) by (pose proof (sq_nonneg ux); pose proof (sq_nonneg uy); lra).
      destruct (Rle_lt_or_eq_dec _ _ G) as [K|K]; [exact K|exfalso].
      pose proof (sq_nonneg ux) as Sx. pose proof (sq_nonneg uy) as Sy. assert (Zx : ux * ux = 0) by lra. assert (Zy : uy * uy = 0) by lra.
      assert (Zx' : ux = 0) by (apply Rmult_integral in Zx; tauto). assert (Zy' : uy = 0) by (apply Rmult_integral in Zy; tauto).
      rewrite Zx', Zy' in H2. unfold p in H2.
      pose proof (sq_nonneg (x2 - x1)) as A1. pose proof (sq_nonneg (y2 - y1)) as A2. assert (B1 : (x2 - x1) * (x2 - x1) = 0) by lra. assert (B2 : (y2 - y1) * (y2 - y1) = 0) by lra.
      assert (B1' : x2 - x1 = 0) by (apply Rmult_integral in B1; tauto). assert (B2' : y2 - y1 = 0) by (apply Rmult_integral in B2; tauto).
      unfold d in D. rewrite B1', B2' in D. lra. }
    assert (RP : 0 < r) by (apply sqrt_lt_R0; exact PP).
    assert (M1 : meets_point (e_p0 s1) c r (of_pt (e_p0 s1))).
    { split; [reflexivity|]. unfold rlen, r. f_equal. unfold rdot, rsub, of_pt, c. cbn [rx ry]. fold x1 y1. ring. }
    assert (M2 : meets_point (e_p0 s2) c r (of_pt (e_p0 s2))).
    { split; [reflexivity|]. unfold rlen, r. f_equal. unfold rdot, rsub, of_pt, c. cbn [rx ry]. fold x2 y2. unfold p in H2. lra. }
    assert (M3 : meets_point (e_p0 s3) c r (of_pt (e_p0 s3))).
    { split; [reflexivity|]. unfold rlen, r. f_equal. unfold rdot, rsub, of_pt, c. cbn [rx ry]. fold x3 y3. unfold q in H3. lra. }
    exists c, r. repeat (split; [assumption|]).
    unfold circle_formation. rewrite S1, S2, S3. cbn [negb]. rewrite (proj2 EX CW).
    rewrite (lazy_ppp_ok s1 s2 s3 c r _ _ _ RP M1 M2 M3 CW). cbn [negb bind]. rewrite OV. reflexivity.
  - unfold circle_formation. rewrite S1, S2, S3. cbn [negb].
    destruct (ex_ppp s1 s2 s3) eqn:E; [|reflexivity]. exfalso. apply CW. apply EX. reflexivity.
Qed.
