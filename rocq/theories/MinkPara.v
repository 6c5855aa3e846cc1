(* The figures of the Minkowski sum: parallelograms and shifted polygons. *)
From Verif Require Import Base Units Poly90Spec GeoSpec PolySpec PolyCycle SnapSpec ArbSpec ArbOrder ArbFormSpec MinkSpec MinkModel MinkWind MinkNest.
From Coq Require Import Reals Lra.
Local Open Scope R_scope.

(* ---------- shifted polygons ---------- *)
Section Shift.
Variables (p : point) (x y : R).
Let ux := IZR (px p). Let uy := IZR (py p).
Lemma shift_px q : IZR (px (pt_convolve q p)) = IZR (px q) + ux.
Proof. cbn [pt_convolve px]. apply plus_IZR. Qed.
Lemma shift_py q : IZR (py (pt_convolve q p)) = IZR (py q) + uy.
Proof. cbn [pt_convolve py]. apply plus_IZR. Qed.
Lemma shift_height a b : height (mk_seg (pt_convolve a p) (pt_convolve b p)) x = height (mk_seg a b) (x - ux) + uy.
Proof.
  unfold height. cbn [s_low s_high]. rewrite !shift_px, !shift_py.
  replace (IZR (px b) + ux - (IZR (px a) + ux)) with (IZR (px b) - IZR (px a)) by ring.
  replace (IZR (py b) + uy - (IZR (py a) + uy)) with (IZR (py b) - IZR (py a)) by ring. ring.
Qed.
Lemma rb_shift_le a b c : rleb (a + c) b = rleb a (b - c).
Proof. rb. Qed.
Lemma rb_shift_lt a b c : rltb (a + c) b = rltb a (b - c).
Proof. rb. Qed.
Lemma rb_shift_gt a b c : rltb b (a + c) = rltb (b - c) a.
Proof. rb. Qed.
Lemma shift_crossing a b : crossing_r x y (pt_convolve a p, pt_convolve b p) = crossing_r (x - ux) (y - uy) (a, b).
Proof. unfold crossing_r. rewrite !shift_height, !shift_px, !rb_shift_le, !rb_shift_gt, !rb_shift_lt. reflexivity. Qed.
Lemma shift_winding l : winding_r (ring_convolve l p) x y = winding_r l (x - ux) (y - uy).
Proof. unfold winding_r, ring_convolve. rewrite cyc_map, zsum_map. apply zsum_ext. intros [a b] _. apply shift_crossing. Qed.
Lemma shift_shoelace l : shoelace2 (ring_convolve l p) = shoelace2 l.
Proof.
  unfold shoelace2, ring_convolve. rewrite cyc_map, zsum_map.
  rewrite (zsum_ext _ (fun e => ((px (fst e) * py (snd e) - px (snd e) * py (fst e)) +
    ((px p * py (snd e) - py p * px (snd e)) - (px p * py (fst e) - py p * px (fst e))))%Z)) by (intros [a b] _; cbn [fst snd pt_convolve px py]; ring).
  rewrite (zsum_add (fun e : point * point => (px (fst e) * py (snd e) - px (snd e) * py (fst e))%Z)).
  rewrite (cyc_telescope (fun q => (px p * py q - py p * px q)%Z)). lia.
Qed.
Lemma shift_oriented l : oriented_r (ring_convolve l p) x y = oriented_r l (x - ux) (y - uy).
Proof. unfold oriented_r. rewrite shift_shoelace, shift_winding. reflexivity. Qed.
Lemma shift_poly g : poly_r (g_outer (poly_convolve g p)) (g_holes (poly_convolve g p)) x y = poly_r (g_outer g) (g_holes g) (x - ux) (y - uy).
Proof. unfold poly_r, poly_convolve. cbn [g_outer g_holes]. rewrite shift_oriented, zsum_map. f_equal. apply zsum_ext. intros h _. apply shift_oriented. Qed.
Lemma shift_on a b : on_r (mk_seg (pt_convolve a p) (pt_convolve b p)) x y <-> on_r (mk_seg a b) (x - ux) (y - uy).
Proof.
  unfold on_r. cbn [s_low s_high]. rewrite !shift_px, !shift_py. split; intros [t [T [E1 E2]]]; exists t; (split; [exact T|]); split; lra.
Qed.
Lemma shift_ring l : on_ring (ring_convolve l p) x y <-> on_ring l (x - ux) (y - uy).
Proof.
  unfold on_ring, ring_convolve. rewrite cyc_map. split.
  - intros [e [I O]]. apply in_map_iff in I. destruct I as [[a b] [<- I]]. cbn [fst snd] in O. apply shift_on in O. exists (a, b). auto.
  - intros [[a b] [I O]]. exists (pt_convolve a p, pt_convolve b p). split; [apply (in_map (fun e => (pt_convolve (fst e) p, pt_convolve (snd e) p)) _ _ I)|]. cbn [fst snd] in *. apply shift_on. exact O.
Qed.
End Shift.

(* ---------- a place that a line separates from the curve ---------- *)
Lemma ring_side (cx cy m : R) l x y : (forall v, In v l -> cx * IZR (px v) + cy * IZR (py v) <= m) -> on_ring l x y -> cx * x + cy * y <= m.
Proof.
  intros H [[a b] [I [t [T [E1 E2]]]]]. apply cyc_in in I. cbn [fst snd s_low s_high] in *. destruct I as [I1 I2]. apply H in I1. apply H in I2. subst x y.
  set (A := cx * IZR (px a) + cy * IZR (py a)) in *. set (B := cx * IZR (px b) + cy * IZR (py b)) in *.
  replace (cx * (IZR (px a) + t * (IZR (px b) - IZR (px a))) + cy * (IZR (py a) + t * (IZR (py b) - IZR (py a)))) with (A + t * (B - A)) by (unfold A, B; ring).
  assert (0 <= t * (m - B)) by (apply Rmult_le_pos; lra). assert (0 <= (1 - t) * (m - A)) by (apply Rmult_le_pos; lra). lra.
Qed.
Lemma winding_apart (cx cy : R) l x y : (forall v, In v l -> cx * IZR (px v) + cy * IZR (py v) < cx * x + cy * y) -> winding_r l x y = 0%Z.
Proof.
  intros H. destruct l as [|p t]; [reflexivity|].
  destruct (list_max (fun v => cx * IZR (px v) + cy * IZR (py v)) p t) as [v [I M]]. cbv beta in M. set (m := cx * IZR (px v) + cy * IZR (py v)) in *. pose proof (H v I) as S. fold m in S.
  destruct (list_max (fun v => IZR (px v)) p t) as [u [_ MU]]. destruct (list_max (fun v => - IZR (px v)) p t) as [d [_ MD]]. cbv beta in MU, MD.
  assert (K : forall x' y', 0 <= cx * (x' - x) + cy * (y' - y) -> winding_r (p :: t) x y = winding_r (p :: t) x' y').
  { intros x' y' P. apply winding_const. intros s T O. apply (ring_side cx cy m) in O; [|exact M].
    replace (cx * (x + s * (x' - x)) + cy * (y + s * (y' - y))) with (cx * x + cy * y + s * (cx * (x' - x) + cy * (y' - y))) in O by ring.
    assert (0 <= s * (cx * (x' - x) + cy * (y' - y))) by (apply Rmult_le_pos; lra). lra. }
  destruct (Rtotal_order cx 0) as [N|[Z|P]].
  - rewrite (K (Rmin x (IZR (px d)) - 1) y).
    + apply winding_strict_left. intros w J. apply MD in J. pose proof (Rmin_r x (IZR (px d))). lra.
    + replace (cx * (Rmin x (IZR (px d)) - 1 - x) + cy * (y - y)) with (- cx * (x - Rmin x (IZR (px d)) + 1)) by ring. pose proof (Rmin_l x (IZR (px d))). apply Rmult_le_pos; lra.
  - rewrite (K (Rmax x (IZR (px u)) + 1) y).
    + apply winding_far_right. intros w J. apply MU in J. pose proof (Rmax_r x (IZR (px u))). lra.
    + rewrite Z. lra.
  - rewrite (K (Rmax x (IZR (px u)) + 1) y).
    + apply winding_far_right. intros w J. apply MU in J. pose proof (Rmax_r x (IZR (px u))). lra.
    + replace (cx * (Rmax x (IZR (px u)) + 1 - x) + cy * (y - y)) with (cx * (Rmax x (IZR (px u)) - x + 1)) by ring. pose proof (Rmax_l x (IZR (px u))). apply Rmult_le_pos; lra.
Qed.

(* ---------- parallelograms ---------- *)
Section Para.
Variables (a1 a2 b1 b2 : point) (x y : R).
Let F := convolve_two_segments (a1, a2) (b1, b2).
Let ox := IZR (px a1) + IZR (px b1). Let oy := IZR (py a1) + IZR (py b1).
Let ux := IZR (px a2) - IZR (px a1). Let uy := IZR (py a2) - IZR (py a1).
Let vx := IZR (px b2) - IZR (px b1). Let vy := IZR (py b2) - IZR (py b1).
Let s := ux * vy - uy * vx.
Hypothesis off : ~ on_ring F x y.
Definition in_para (al be : R) : Prop := x = ox + al * ux + be * vx /\ y = oy + al * uy + be * vy.
Lemma para_vertices v : In v F -> exists al be, (al = 0 \/ al = 1) /\ (be = 0 \/ be = 1) /\ IZR (px v) = ox + al * ux + be * vx /\ IZR (py v) = oy + al * uy + be * vy.
Proof.
  unfold F, convolve_two_segments. cbn [fst snd In]. intros [<-|[<-|[<-|[<-|[]]]]]; [exists 0, 1|exists 0, 0|exists 1, 0|exists 1, 1];
  cbn [pt_convolve px py]; rewrite !plus_IZR; unfold ox, oy, ux, uy, vx, vy; (split; [auto|]); (split; [auto|]); split; ring.
Qed.
(* the edges of the ring *)
Lemma on_side0 t : 0 <= t <= 1 -> in_para 0 t -> on_ring F x y.
Proof.
  intros T [E1 E2]. exists (pt_convolve a1 b2, pt_convolve a1 b1). split; [left; reflexivity|]. exists (1 - t). cbn [fst snd s_low s_high pt_convolve px py]. rewrite !plus_IZR.
  split; [lra|]. subst. unfold ox, oy, vx, vy in *. split; lra.
Qed.
Lemma on_side1 t : 0 <= t <= 1 -> in_para t 0 -> on_ring F x y.
Proof.
  intros T [E1 E2]. exists (pt_convolve a1 b1, pt_convolve a2 b1). split; [right; left; reflexivity|]. exists t. cbn [fst snd s_low s_high pt_convolve px py]. rewrite !plus_IZR.
  split; [lra|]. subst. unfold ox, oy, ux, uy in *. split; lra.
Qed.
Lemma on_side2 t : 0 <= t <= 1 -> in_para 1 t -> on_ring F x y.
Proof.
  intros T [E1 E2]. exists (pt_convolve a2 b1, pt_convolve a2 b2). split; [right; right; left; reflexivity|]. exists t. cbn [fst snd s_low s_high pt_convolve px py]. rewrite !plus_IZR.
  split; [lra|]. subst. unfold ox, oy, ux, uy, vx, vy in *. split; lra.
Qed.
Lemma on_side3 t : 0 <= t <= 1 -> in_para t 1 -> on_ring F x y.
Proof.
  intros T [E1 E2]. exists (pt_convolve a2 b2, pt_convolve a1 b2). split; [right; right; right; left; reflexivity|]. exists (1 - t). cbn [fst snd s_low s_high pt_convolve px py]. rewrite !plus_IZR.
  split; [lra|]. subst. unfold ox, oy, ux, uy, vx, vy in *. split; lra.
Qed.
Lemma para_shoelace : IZR (shoelace2 F) = 2 * s.
Proof.
  unfold shoelace2, F, convolve_two_segments, cyc_edges, zsum. cbn [app combine fold_right fst snd pt_convolve px py].
  rewrite ?plus_IZR, ?minus_IZR, ?mult_IZR, ?plus_IZR. unfold s, ux, uy, vx, vy. ring.
Qed.
(* on a line: nothing is inside, and the edges cover it *)
Lemma flat_multiple : s = 0 -> exists wx wy p q, (wx <> 0 \/ wy <> 0) /\ ux = p * wx /\ uy = p * wy /\ vx = q * wx /\ vy = q * wy.
Proof.
  intros S. destruct (Req_dec ux 0) as [U|U].
  - destruct (Req_dec uy 0) as [V|V].
    + destruct (Req_dec vx 0) as [A|A]; [destruct (Req_dec vy 0) as [B|B]|].
      * exists 1, 0, 0, 0. rewrite U, V, A, B. split; [left; lra|]. repeat split; ring.
      * exists vx, vy, 0, 1. rewrite U, V. split; [right; exact B|]. repeat split; ring.
      * exists vx, vy, 0, 1. rewrite U, V. split; [left; exact A|]. repeat split; ring.
    + exists ux, uy, 1, (vy / uy). split; [right; exact V|]. split; [ring|]. split; [ring|]. split; [|field; exact V].
      unfold s in S. rewrite U in *. assert (uy * vx = 0) by lra. apply Rmult_integral in H. destruct H; [contradiction|]. rewrite H. ring.
  - exists ux, uy, 1, (vx / ux). split; [left; exact U|]. split; [ring|]. split; [ring|]. split; [field; exact U|].
    unfold s in S. apply Rmult_eq_reg_l with ux; [|exact U]. replace (ux * (vx / ux * uy)) with (uy * vx) by (field; exact U). lra.
Qed.
Lemma scaled (c d : R) : 0 <= c <= d \/ d <= c <= 0 -> exists t, 0 <= t <= 1 /\ c = t * d.
Proof.
  intros H. destruct (Req_dec d 0) as [->|N]; [exists 0; split; lra|]. exists (c / d). split; [|field; exact N]. destruct H as [H|H].
  - split; [apply Rmult_le_pos; [lra|left; apply Rinv_0_lt_compat; lra]|]. apply Rmult_le_reg_r with d; [lra|]. unfold Rdiv. rewrite Rmult_assoc, Rinv_l by exact N. lra.
  - replace (c / d) with (- c / - d) by (field; exact N). split; [apply Rmult_le_pos; [lra|left; apply Rinv_0_lt_compat; lra]|]. apply Rmult_le_reg_r with (- d); [lra|]. unfold Rdiv. rewrite Rmult_assoc, Rinv_l by lra. lra.
Qed.
Lemma flat_cover wx wy p q r : ux = p * wx -> uy = p * wy -> vx = q * wx -> vy = q * wy -> x = ox + r * wx -> y = oy + r * wy ->
  (Rmin 0 p + Rmin 0 q <= r <= Rmax 0 p + Rmax 0 q) -> False.
Proof.
  intros U1 U2 V1 V2 X Y R. apply off.
  assert (K1 : forall t, r = t * q -> in_para 0 t) by (intros t E; unfold in_para; rewrite V1, V2; subst r; split; lra).
  assert (K2 : forall t, r = t * p -> in_para t 0) by (intros t E; unfold in_para; rewrite U1, U2; subst r; split; lra).
  assert (K3 : forall t, r - p = t * q -> in_para 1 t) by (intros t E; unfold in_para; rewrite U1, U2, V1, V2; assert (r = p + t * q) by lra; subst r; split; lra).
  assert (K4 : forall t, r - q = t * p -> in_para t 1) by (intros t E; unfold in_para; rewrite U1, U2, V1, V2; assert (r = q + t * p) by lra; subst r; split; lra).
  unfold Rmin, Rmax in R. destruct (Rle_dec 0 p) as [P|P], (Rle_dec 0 q) as [Q|Q].
  - destruct (Rle_dec r p) as [L|L]; [destruct (scaled r p) as [t [T E]]; [lra|apply (on_side1 t T), K2, E]|destruct (scaled (r - p) q) as [t [T E]]; [lra|apply (on_side2 t T), K3, E]].
  - destruct (Rle_dec r 0) as [L|L]; [destruct (scaled r q) as [t [T E]]; [lra|apply (on_side0 t T), K1, E]|destruct (scaled r p) as [t [T E]]; [lra|apply (on_side1 t T), K2, E]].
  - destruct (Rle_dec r 0) as [L|L]; [destruct (scaled r p) as [t [T E]]; [lra|apply (on_side1 t T), K2, E]|destruct (scaled r q) as [t [T E]]; [lra|apply (on_side0 t T), K1, E]].
  - destruct (Rle_dec p r) as [L|L]; [destruct (scaled r p) as [t [T E]]; [lra|apply (on_side1 t T), K2, E]|destruct (scaled (r - p) q) as [t [T E]]; [lra|apply (on_side2 t T), K3, E]].
Qed.
Lemma part_of t p : 0 <= t <= 1 -> Rmin 0 p <= t * p <= Rmax 0 p.
Proof.
  intros T. unfold Rmin, Rmax. destruct (Rle_dec 0 p) as [P|P].
  - assert (0 <= t * p) by (apply Rmult_le_pos; lra). assert (0 <= (1 - t) * p) by (apply Rmult_le_pos; lra). lra.
  - assert (0 <= t * - p) by (apply Rmult_le_pos; lra). assert (0 <= (1 - t) * - p) by (apply Rmult_le_pos; lra). lra.
Qed.
Lemma flat_none al be : s = 0 -> 0 <= al <= 1 -> 0 <= be <= 1 -> ~ in_para al be.
Proof.
  intros S A B [X Y]. destruct (flat_multiple S) as [wx [wy [p [q [W [U1 [U2 [V1 V2]]]]]]]].
  apply (flat_cover wx wy p q (al * p + be * q) U1 U2 V1 V2).
  - rewrite X, U1, V1. ring.
  - rewrite Y, U2, V2. ring.
  - pose proof (part_of al p A). pose proof (part_of be q B). lra.
Qed.
Lemma flat_winding : s = 0 -> winding_r F x y = 0%Z.
Proof.
  intros S. destruct (flat_multiple S) as [wx [wy [p [q [W [U1 [U2 [V1 V2]]]]]]]].
  assert (VX : forall v, In v F -> exists r, Rmin 0 p + Rmin 0 q <= r <= Rmax 0 p + Rmax 0 q /\ IZR (px v) = ox + r * wx /\ IZR (py v) = oy + r * wy).
  { intros v I. destruct (para_vertices v I) as [al [be [A [B [E1 E2]]]]]. exists (al * p + be * q).
    split; [pose proof (part_of al p ltac:(lra)); pose proof (part_of be q ltac:(lra)); lra|]. rewrite E1, E2, U1, U2, V1, V2. split; ring. }
  assert (WW : 0 < wx * wx + wy * wy).
  { pose proof (Rle_0_sqr wx) as Q1. pose proof (Rle_0_sqr wy) as Q2. unfold Rsqr in *. destruct W as [W|W]; apply Rsqr_pos_lt in W; unfold Rsqr in W; lra. }
  set (c := wx * (y - oy) - wy * (x - ox)). destruct (Rtotal_order c 0) as [C|[C|C]].
  - apply (winding_apart wy (- wx)). intros v I. destruct (VX v I) as [r [_ [-> ->]]]. unfold c in C. lra.
  - set (r := (wx * (x - ox) + wy * (y - oy)) / (wx * wx + wy * wy)).
    assert (X : x = ox + r * wx).
    { apply Rmult_eq_reg_r with (wx * wx + wy * wy); [|lra]. replace ((ox + r * wx) * (wx * wx + wy * wy)) with (ox * (wx * wx + wy * wy) + wx * (wx * (x - ox) + wy * (y - oy))) by (unfold r; field; lra).
      replace (wx * (wx * (x - ox) + wy * (y - oy))) with (wx * wx * (x - ox) + wy * (wx * (y - oy))) by ring. replace (wx * (y - oy)) with (wy * (x - ox)) by (unfold c in C; lra). ring. }
    assert (Y : y = oy + r * wy).
    { apply Rmult_eq_reg_r with (wx * wx + wy * wy); [|lra]. replace ((oy + r * wy) * (wx * wx + wy * wy)) with (oy * (wx * wx + wy * wy) + wy * (wx * (x - ox) + wy * (y - oy))) by (unfold r; field; lra).
      replace (wy * (wx * (x - ox) + wy * (y - oy))) with (wx * (wy * (x - ox)) + wy * wy * (y - oy)) by ring. replace (wy * (x - ox)) with (wx * (y - oy)) by (unfold c in C; lra). ring. }
    clearbody r. destruct (Rlt_dec r (Rmin 0 p + Rmin 0 q)) as [L|L]; [|destruct (Rlt_dec (Rmax 0 p + Rmax 0 q) r) as [G|G]].
    + apply (winding_apart (- wx) (- wy)). intros v I. destruct (VX v I) as [r' [R [-> ->]]]. rewrite X, Y.
      assert (0 < (r' - r) * (wx * wx + wy * wy)) by (apply Rmult_lt_0_compat; lra). lra.
    + apply (winding_apart wx wy). intros v I. destruct (VX v I) as [r' [R [-> ->]]]. rewrite X, Y.
      assert (0 < (r - r') * (wx * wx + wy * wy)) by (apply Rmult_lt_0_compat; lra). lra.
    + exfalso. apply (flat_cover wx wy p q r U1 U2 V1 V2 X Y). lra.
  - apply (winding_apart (- wy) wx). intros v I. destruct (VX v I) as [r [_ [-> ->]]]. unfold c in C. lra.
Qed.
Lemma para_coords : s <> 0 -> exists al be, in_para al be.
Proof.
  intros S. exists (((x - ox) * vy - (y - oy) * vx) / s), ((ux * (y - oy) - uy * (x - ox)) / s). unfold in_para, s in *. split; field; exact S.
Qed.
Lemma outside_winding al be : s <> 0 -> in_para al be -> ~ (0 < al < 1 /\ 0 < be < 1) -> winding_r F x y = 0%Z.
Proof.
  intros S [X Y] N.
  assert (L : forall (c d : R), (forall al' be', (al' = 0 \/ al' = 1) -> (be' = 0 \/ be' = 1) -> c * al' + d * be' < c * al + d * be) -> winding_r F x y = 0%Z).
  { intros c d H. apply (winding_apart ((c * vy - d * uy) / s) ((d * ux - c * vx) / s)). intros v I. destruct (para_vertices v I) as [al' [be' [A [B [-> ->]]]]]. rewrite X, Y.
    assert (Q : forall p q, (c * vy - d * uy) / s * (ox + p * ux + q * vx) + (d * ux - c * vx) / s * (oy + p * uy + q * vy) =
      ((c * vy - d * uy) / s * ox + (d * ux - c * vx) / s * oy) + (c * p + d * q)) by (intros p q; unfold s in *; field; exact S).
    rewrite !Q. pose proof (H al' be' A B). lra. }
  destruct (Rlt_dec al 0) as [A0|A0]; [apply (L (-1) 0); intros al' be' [->| ->] [->| ->]; lra|].
  destruct (Rlt_dec 1 al) as [A1|A1]; [apply (L 1 0); intros al' be' [->| ->] [->| ->]; lra|].
  destruct (Rlt_dec be 0) as [B0|B0]; [apply (L 0 (-1)); intros al' be' [->| ->] [->| ->]; lra|].
  destruct (Rlt_dec 1 be) as [B1|B1]; [apply (L 0 1); intros al' be' [->| ->] [->| ->]; lra|].
  exfalso. destruct (Req_dec al 0) as [->|E0]; [apply off, (on_side0 be); [lra|split; assumption]|].
  destruct (Req_dec al 1) as [->|E1]; [apply off, (on_side2 be); [lra|split; assumption]|].
  destruct (Req_dec be 0) as [->|E2]; [apply off, (on_side1 al); [lra|split; assumption]|].
  destruct (Req_dec be 1) as [->|E3]; [apply off, (on_side3 al); [lra|split; assumption]|].
  apply N. lra.
Qed.
Lemma cross_height (a b : point) : (px a < px b)%Z -> rltb (height (mk_seg a b) x) y =
  rltb 0 ((IZR (px b) - IZR (px a)) * (y - IZR (py a)) - (IZR (py b) - IZR (py a)) * (x - IZR (px a))).
Proof.
  intros L. apply IZR_lt in L. set (h := height (mk_seg a b) x). set (w := IZR (px b) - IZR (px a)).
  assert (E : w * (y - IZR (py a)) - (IZR (py b) - IZR (py a)) * (x - IZR (px a)) = w * (y - h)) by (unfold h, w, height; cbn [s_low s_high]; field; lra).
  rewrite E. assert (W : 0 < w) by (unfold w; lra). unfold rltb. destruct (Rlt_dec h y) as [H|H], (Rlt_dec 0 (w * (y - h))) as [K|K]; try reflexivity; exfalso.
  - apply K. apply Rmult_lt_0_compat; lra.
  - assert (0 <= w * (h - y)) by (apply Rmult_le_pos; lra). lra.
Qed.
Lemma crossing_cross (a b : point) (c : R) :
  c = (IZR (px b) - IZR (px a)) * (y - IZR (py a)) - (IZR (py b) - IZR (py a)) * (x - IZR (px a)) ->
  crossing_r x y (a, b) = if rleb (IZR (px a)) x && rltb x (IZR (px b)) && rltb 0 c then 1%Z
    else if rleb (IZR (px b)) x && rltb x (IZR (px a)) && rltb c 0 then (-1)%Z else 0%Z.
Proof.
  intros E. unfold crossing_r.
  destruct (rleb (IZR (px a)) x && rltb x (IZR (px b))) eqn:I1.
  - assert (L : (px a < px b)%Z) by (apply lt_IZR; apply andb_true_iff in I1; rewrite rleb_iff, rltb_iff in I1; lra).
    rewrite (cross_height a b L), <- E. cbn [andb]. destruct (rltb 0 c); [reflexivity|].
    replace (rleb (IZR (px b)) x && rltb x (IZR (px a))) with false; [reflexivity|]. symmetry. apply not_true_is_false. intros K. apply andb_true_iff in K, I1. rewrite rleb_iff, rltb_iff in K, I1. lra.
  - cbn [andb]. destruct (rleb (IZR (px b)) x && rltb x (IZR (px a))) eqn:I2; [|reflexivity].
    assert (L : (px b < px a)%Z) by (apply lt_IZR; apply andb_true_iff in I2; rewrite rleb_iff, rltb_iff in I2; lra).
    rewrite (cross_height b a L). cbn [andb].
    replace ((IZR (px a) - IZR (px b)) * (y - IZR (py b)) - (IZR (py a) - IZR (py b)) * (x - IZR (px b))) with (- c) by (rewrite E; ring).
    replace (rltb 0 (- c)) with (rltb c 0) by rb. reflexivity.
Qed.
Lemma strictly_part t p : 0 < t < 1 -> (p = 0 /\ t * p = 0) \/ (0 < p /\ 0 < t * p < p) \/ (p < 0 /\ p < t * p < 0).
Proof.
  intros T. destruct (Rtotal_order p 0) as [P|[P|P]].
  - right; right. assert (0 < t * - p) by (apply Rmult_lt_0_compat; lra). assert (0 < (1 - t) * - p) by (apply Rmult_lt_0_compat; lra). lra.
  - left. rewrite P. split; ring.
  - right; left. assert (0 < t * p) by (apply Rmult_lt_0_compat; lra). assert (0 < (1 - t) * p) by (apply Rmult_lt_0_compat; lra). lra.
Qed.
Lemma inside_winding al be : s <> 0 -> in_para al be -> 0 < al < 1 -> 0 < be < 1 -> winding_r F x y = if rltb 0 s then 1%Z else (-1)%Z.
Proof.
  intros S [X Y] A B. unfold winding_r, F, convolve_two_segments, cyc_edges, zsum. cbn [app combine fold_right fst snd].
  rewrite (crossing_cross (pt_convolve a1 b2) (pt_convolve a1 b1) (al * s)) by (cbn [pt_convolve px py]; rewrite !plus_IZR, X, Y; unfold s, ox, oy, ux, uy, vx, vy; ring).
  rewrite (crossing_cross (pt_convolve a1 b1) (pt_convolve a2 b1) (be * s)) by (cbn [pt_convolve px py]; rewrite !plus_IZR, X, Y; unfold s, ox, oy, ux, uy, vx, vy; ring).
  rewrite (crossing_cross (pt_convolve a2 b1) (pt_convolve a2 b2) ((1 - al) * s)) by (cbn [pt_convolve px py]; rewrite !plus_IZR, X, Y; unfold s, ox, oy, ux, uy, vx, vy; ring).
  rewrite (crossing_cross (pt_convolve a2 b2) (pt_convolve a1 b2) ((1 - be) * s)) by (cbn [pt_convolve px py]; rewrite !plus_IZR, X, Y; unfold s, ox, oy, ux, uy, vx, vy; ring).
  assert (P0 : IZR (px (pt_convolve a1 b2)) = ox + vx) by (cbn [pt_convolve px]; rewrite plus_IZR; unfold ox, vx; ring).
  assert (P1 : IZR (px (pt_convolve a1 b1)) = ox) by (cbn [pt_convolve px]; rewrite plus_IZR; unfold ox; ring).
  assert (P2 : IZR (px (pt_convolve a2 b1)) = ox + ux) by (cbn [pt_convolve px]; rewrite plus_IZR; unfold ox, ux; ring).
  assert (P3 : IZR (px (pt_convolve a2 b2)) = ox + ux + vx) by (cbn [pt_convolve px]; rewrite plus_IZR; unfold ox, ux, vx; ring).
  rewrite P0, P1, P2, P3. clear P0 P1 P2 P3.
  pose proof (strictly_part al ux A) as QA. pose proof (strictly_part be vx B) as QB.
  assert (NZ : ~ (ux = 0 /\ vx = 0)) by (intros [E1 E2]; apply S; unfold s; rewrite E1, E2; ring).
  clear Y off. clearbody ux uy vx vy ox oy. subst x. set (p := al * ux) in *. set (q := be * vx) in *. clearbody p q.
  assert (SG : forall t, 0 < t -> (0 < s -> 0 < t * s) /\ (s < 0 -> t * s < 0)).
  { intros t T. split; intros K; [apply Rmult_lt_0_compat; assumption|]. assert (0 < t * - s) by (apply Rmult_lt_0_compat; lra). lra. }
  pose proof (SG al ltac:(lra)) as S1. pose proof (SG be ltac:(lra)) as S2. pose proof (SG (1 - al) ltac:(lra)) as S3. pose proof (SG (1 - be) ltac:(lra)) as S4. clear SG.
  set (c1 := al * s) in *. set (c2 := be * s) in *. set (c3 := (1 - al) * s) in *. set (c4 := (1 - be) * s) in *. clearbody c1 c2 c3 c4 s.
  destruct (Rlt_dec 0 s) as [P|P].
  - assert (rltb 0 s = true) as -> by (apply rltb_iff; exact P). destruct S1 as [S1 _], S2 as [S2 _], S3 as [S3 _], S4 as [S4 _]. specialize (S1 P). specialize (S2 P). specialize (S3 P). specialize (S4 P).
    rewrite !(proj2 (rltb_iff 0 _)) by assumption.
    assert (Z : forall c, 0 < c -> rltb c 0 = false) by (intros c C; rb). rewrite !Z by assumption. rewrite !andb_true_r, !andb_false_r.
    destruct QA as [QA|[QA|QA]], QB as [QB|[QB|QB]]; try (exfalso; apply NZ; tauto); rb.
  - assert (N : s < 0) by lra. assert (rltb 0 s = false) as -> by rb. destruct S1 as [_ S1], S2 as [_ S2], S3 as [_ S3], S4 as [_ S4]. specialize (S1 N). specialize (S2 N). specialize (S3 N). specialize (S4 N).
    rewrite !(fun c => proj2 (rltb_iff c 0)) by assumption.
    assert (Z : forall c, c < 0 -> rltb 0 c = false) by (intros c C; rb). rewrite !Z by assumption. rewrite !andb_true_r, !andb_false_r.
    destruct QA as [QA|[QA|QA]], QB as [QB|[QB|QB]]; try (exfalso; apply NZ; tauto); rb.
Qed.
(* off the edges a parallelogram covers its places once *)
Theorem para_covers : oriented_r F x y = 1%Z /\ (exists al be, 0 <= al <= 1 /\ 0 <= be <= 1 /\ in_para al be) \/
  oriented_r F x y = 0%Z /\ ~ (exists al be, 0 <= al <= 1 /\ 0 <= be <= 1 /\ in_para al be).
Proof.
  destruct (Req_dec s 0) as [S|S].
  - right. split; [unfold oriented_r; rewrite (flat_winding S); destruct (0 <? _)%Z; reflexivity|]. intros [al [be [A [B P]]]]. apply (flat_none al be S A B P).
  - destruct (para_coords S) as [al [be P]].
    destruct (Rlt_dec 0 al) as [A0|A0]; [destruct (Rlt_dec al 1) as [A1|A1]; [destruct (Rlt_dec 0 be) as [B0|B0]; [destruct (Rlt_dec be 1) as [B1|B1]|]|]|].
    1: { left. split; [|exists al, be; split; [lra|split; [lra|exact P]]]. unfold oriented_r. rewrite (inside_winding al be S P) by lra.
      pose proof para_shoelace as SH. destruct (Rlt_dec 0 s) as [L|L].
      - rewrite (proj2 (rltb_iff 0 s) L). assert (0 < shoelace2 F)%Z by (apply lt_IZR; lra). rewrite (proj2 (Z.ltb_lt 0 _)) by assumption. reflexivity.
      - assert (rltb 0 s = false) as -> by rb. assert (shoelace2 F < 0)%Z by (apply lt_IZR; lra). rewrite (proj2 (Z.ltb_ge 0 _)) by lia. reflexivity. }
    all: right; split; [unfold oriented_r; rewrite (outside_winding al be S P) by lra; destruct (0 <? _)%Z; reflexivity|].
    all: intros [al' [be' [A [B [X Y]]]]]; destruct P as [X' Y'].
    all: assert (D1 : (al' - al) * s = 0) by (unfold s; replace ((al' - al) * (ux * vy - uy * vx)) with ((al' * ux + be' * vx - (al * ux + be * vx)) * vy - (al' * uy + be' * vy - (al * uy + be * vy)) * vx) by ring; replace (al' * ux + be' * vx) with (x - ox) by lra; replace (al * ux + be * vx) with (x - ox) by lra; replace (al' * uy + be' * vy) with (y - oy) by lra; replace (al * uy + be * vy) with (y - oy) by lra; ring).
    all: assert (D2 : (be' - be) * s = 0) by (unfold s; replace ((be' - be) * (ux * vy - uy * vx)) with (ux * (al' * uy + be' * vy - (al * uy + be * vy)) - uy * (al' * ux + be' * vx - (al * ux + be * vx))) by ring; replace (al' * ux + be' * vx) with (x - ox) by lra; replace (al * ux + be * vx) with (x - ox) by lra; replace (al' * uy + be' * vy) with (y - oy) by lra; replace (al * uy + be * vy) with (y - oy) by lra; ring).
    all: apply Rmult_integral in D1; apply Rmult_integral in D2; destruct D1 as [D1|D1]; [|contradiction]; destruct D2 as [D2|D2]; [|contradiction].
    all: assert (al' = al) by lra; assert (be' = be) by lra; subst al' be'.
    all: apply off; destruct (Req_dec al 0) as [->|E0]; [apply (on_side0 be); [lra|split; assumption]|].
    all: destruct (Req_dec al 1) as [->|E1]; [apply (on_side2 be); [lra|split; assumption]|].
    all: destruct (Req_dec be 0) as [->|E2]; [apply (on_side1 al); [lra|split; assumption]|].
    all: destruct (Req_dec be 1) as [->|E3]; [apply (on_side3 al); [lra|split; assumption]|exfalso; lra].
Qed.
End Para.
