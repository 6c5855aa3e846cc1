(* C28-C33, C45-C48 and the polygon part of C11: the polygon functions of
   polygon_traits.hpp. *)
From Verif Require Import Base Units Outcome Scan90Spec Poly90Spec Poly90Model Poly90Proofs PolyCycle Poly90Vertices IsoSpec IsoModel IsoProofs.
From Verif Require Import Set90Spec Set90Model GeoSpec IvlModel IvlProofs RectModel RectProofs SegModel SegProofs PolySpec PolyModel
  PolyArea PolyEdge PolyContains PolyJordan Poly90Contains PolyMaps PolyMapModel PolySnap PolyMapProofs.

From Coq Require Import Lqa.

(* a square with a notch, counterclockwise *)
Definition notch : list point := [mk_pt 0 0; mk_pt 8 0; mk_pt 8 8; mk_pt 4 4; mk_pt 0 8].
Definition ell : list Z := [0; 0; 5; 4; 3; 6].

(* ---------- C28 ---------- *)
Theorem C28_area : forall w l v, points_area_d w l = Ok v -> Z.abs v = Z.abs (shoelace2 l).
Proof. intros w l v H. rewrite (points_area_d_eq _ _ _ H). lia. Qed.
Print Assumptions C28_area.
Theorem C28_area_holes : forall w g v, poly_area_d w g = Ok v ->
  v = Z.abs (shoelace2 (g_outer g)) - zsum (fun h => Z.abs (shoelace2 h)) (g_holes g).
Proof. exact poly_area_d_eq. Qed.
Print Assumptions C28_area_holes.
Theorem C28_area_defined : forall w B l, 0 <= B -> Forall (pt_fits B) l -> Z.of_nat (length l) * (8 * (B * B)) <= 2 ^ w ->
  exists v, points_area_d w l = Ok v.
Proof. exact points_area_d_fits. Qed.
Print Assumptions C28_area_defined.
Theorem C28_area_90 : forall g v, poly_area_90 g = Ok v ->
  2 * v = Z.abs (shoelace2 (compact_to_points (p_outer g))) - zsum (fun h => Z.abs (shoelace2 (compact_to_points h))) (p_holes g).
Proof. exact poly_area_90_eq. Qed.
Print Assumptions C28_area_90.
(* the value does not depend on the start vertex, the direction and the place *)
Theorem C28_area_invariant : forall l m dx dy,
  Z.abs (shoelace2 (l ++ m)) = Z.abs (shoelace2 (m ++ l)) /\
  Z.abs (shoelace2 (rev l)) = Z.abs (shoelace2 l) /\
  shoelace2 (map (shift dx dy) l) = shoelace2 l.
Proof. intros l m dx dy. rewrite shoelace_rotate, shoelace_rev, shoelace_shift. repeat split. lia. Qed.
Print Assumptions C28_area_invariant.
Theorem C28_winding : forall w l b, points_ccw_d w l = Ok b -> (b = true <-> 0 < shoelace2 l).
Proof.
  intros w l b. unfold points_ccw_d. destruct (points_area_d w l) as [v| |] eqn:E; cbn [obind]; try discriminate.
  intros H. rewrite (points_area_d_eq _ _ _ E) in H. assert (b = (- shoelace2 l <? 0)) by congruence. lia.
Qed.
Print Assumptions C28_winding.
Theorem C28_winding_rev : forall w l b c, points_ccw_d w l = Ok b -> points_ccw_d w (rev l) = Ok c -> shoelace2 l <> 0 -> c = negb b.
Proof.
  intros w l b c H1 H2 N. apply C28_winding in H1, H2. rewrite shoelace_rev in H2. destruct b, c; try reflexivity; exfalso.
  - assert (0 < shoelace2 l) by tauto. assert (0 < - shoelace2 l) by tauto. lia.
  - assert (~ 0 < shoelace2 l) by (intros X; apply H1 in X; discriminate). assert (~ 0 < - shoelace2 l) by (intros X; apply H2 in X; discriminate). lia.
Qed.
Print Assumptions C28_winding_rev.
Theorem C28_winding_start : forall w l m b c, points_ccw_d w (l ++ m) = Ok b -> points_ccw_d w (m ++ l) = Ok c -> c = b.
Proof.
  intros w l m b c H1 H2. apply C28_winding in H1, H2. rewrite shoelace_rotate in H1. destruct b, c; try reflexivity; exfalso.
  - assert (X : 0 < shoelace2 (m ++ l)) by tauto. apply H2 in X. discriminate.
  - assert (X : 0 < shoelace2 (m ++ l)) by tauto. apply H1 in X. discriminate.
Qed.
Print Assumptions C28_winding_start.
Example C28_demo : points_area_d 64 notch = Ok (-96) /\ points_ccw_d 64 notch = Ok true /\ points_ccw_d 64 (rev notch) = Ok false /\
  poly_area_d 64 (mk_gpoly notch [[mk_pt 1 1; mk_pt 3 1; mk_pt 2 2]]) = Ok 94 /\
  poly_area_90 (mk_poly90 ell [[1; 1; 2; 3]]) = Ok 24.
Proof. vm_compute. repeat split; reflexivity. Qed.

(* ---------- C29 ---------- *)
Theorem C29_round_trip : forall l x0 y0 m xn yn, Nat.Even (length l) -> l = x0 :: y0 :: m ++ [xn; yn] -> xn <> x0 ->
  compact_to_points l = ring_points l /\ points_to_compact (compact_to_points l) = l.
Proof. exact compact_round_trip. Qed.
Print Assumptions C29_round_trip.
(* in particular without edges of length zero *)
Theorem C29_round_trip_nz : forall l, Nat.Even (length l) -> no_zero_edge (ring_points l) ->
  compact_to_points l = ring_points l /\ points_to_compact (compact_to_points l) = l.
Proof.
  intros l [n L] Z0. assert (E : Nat.Even (length l)) by (exists n; exact L). pose proof (ctp_ring_points l E Z0) as R. split; [exact R|]. rewrite R.
  destruct (even_flat n l L) as [cs [-> _]]. destruct cs as [|[x y] cs]; [reflexivity|].
  transitivity (points_to_compact (rp x ((x, y) :: cs))); [f_equal; exact (ring_points_flat x ((x, y) :: cs))|]. apply ptc_rp.
Qed.
Print Assumptions C29_round_trip_nz.
Theorem C29_rectilinear : forall l, rectilinear (compact_to_points l).
Proof. exact ctp_axis. Qed.
Print Assumptions C29_rectilinear.
Theorem C29_points_h : forall l, alternates Horizontal l -> no_zero_edge l -> compact_to_points (points_to_compact l) = l.
Proof. exact points_round_trip_h. Qed.
Print Assumptions C29_points_h.
Theorem C29_points_v : forall f t, alternates Vertical (f :: t) -> no_zero_edge (f :: t) -> compact_to_points (points_to_compact (f :: t)) = t ++ [f].
Proof. exact points_round_trip_v. Qed.
Print Assumptions C29_points_v.
(* even length is not enough: the last x is dropped if it equals the first *)
Theorem C29_round_trip_refuted : exists l, (4 <= length l)%nat /\ Nat.Even (length l) /\ points_to_compact (compact_to_points l) <> l.
Proof. exists [0; 0; 5; 5; 0; 9]. split; [cbn; lia|]. split; [exists 3%nat; reflexivity|]. vm_compute. discriminate. Qed.
Print Assumptions C29_round_trip_refuted.
Example C29_demo : compact_to_points ell = [mk_pt 0 0; mk_pt 5 0; mk_pt 5 4; mk_pt 3 4; mk_pt 3 6; mk_pt 0 6] /\ points_to_compact (compact_to_points ell) = ell /\
  alternates Horizontal (compact_to_points ell) /\ no_zero_edge (compact_to_points ell).
Proof.
  split; [reflexivity|]. split; [reflexivity|]. split; [split; [exists 3%nat; reflexivity|cbn; repeat split; reflexivity]|].
  unfold no_zero_edge. cbn. repeat (apply Forall_cons; [discriminate|]). constructor.
Qed.

(* ---------- C30 ---------- *)
Theorem C30_contains_90_partial : forall l p touch, Nat.Even (length l) -> no_zero_edge (ring_points l) ->
  (on_curve (ring_points l) p -> contains_90 l p touch = touch) /\
  (~ on_curve (ring_points l) p -> contains_90 l p touch = Z.odd (winding_number (ring_points l) (px p) (py p))).
Proof. exact contains_90_spec. Qed.
Print Assumptions C30_contains_90_partial.
(* the winding number counts the vertical edges crossed by the ray to the left
   (C06_winding_rows); start vertex and direction do not matter *)
Theorem C30_independent : forall l p, rectilinear l ->
  Z.odd (winding_number l (px p) (py p)) = Z.odd (zsum (crossing_left (px p) (py p)) (cyc_edges l)) /\
  (forall a b, l = a ++ b -> Z.odd (winding_number (b ++ a) (px p) (py p)) = Z.odd (winding_number l (px p) (py p))) /\
  Z.odd (winding_number (rev l) (px p) (py p)) = Z.odd (winding_number l (px p) (py p)).
Proof.
  intros l p R. split; [rewrite (winding_left l (px p) (py p) R); reflexivity|]. split.
  - intros a b ->. rewrite winding_rotate. reflexivity.
  - rewrite winding_rev. apply Z.odd_opp.
Qed.
Print Assumptions C30_independent.
(* polygon_90 and general polygons agree *)
Theorem C30_agrees : forall l p touch, Nat.Even (length l) -> no_zero_edge (ring_points l) -> ring_points l <> [] ->
  Forall pt_int (ring_points l) -> pt_int p -> contains_90 l p touch = contains_general (ring_points l) p touch.
Proof.
  intros l p touch E Z0 NE I J. destruct (contains_90_spec l p touch E Z0) as [A B].
  assert (T : two_points (ring_points l)).
  { destruct (ring_points l) as [|f [|s t]]; [congruence| |].
    - unfold no_zero_edge in Z0. cbn in Z0. inversion Z0 as [|x y Z1 Z2]; subst. cbn [fst snd] in Z1. congruence.
    - exists f, s. split; [left; reflexivity|]. split; [right; left; reflexivity|]. unfold no_zero_edge in Z0. cbn in Z0. inversion Z0 as [|x y Z1 Z2]; subst. exact Z1. }
  destruct (contains_general_spec _ p touch I J T) as [A' B']. destruct (on_curve_dec (ring_points l) p) as [O|O]; [rewrite A, A' by exact O; reflexivity|].
  rewrite (B O), (B' O). symmetry. apply below_winding; [apply ring_rectilinear; assumption|exact O].
Qed.
Print Assumptions C30_agrees.
(* a vertex on a straight vertical edge: the vertex itself is not recognised as
   a boundary point, and the points to its right are misjudged *)
Theorem C30_contains_90_refuted : exists l p q, Nat.Even (length l) /\ on_curve (ring_points l) p /\ contains_90 l p false = true /\
  ~ on_curve (ring_points l) q /\ contains_90 l q true <> Z.odd (winding_number (ring_points l) (px q) (py q)).
Proof.
  exists [0; 0; 4; 2; 4; 6], (mk_pt 4 2), (mk_pt 9 2). split; [exists 3%nat; reflexivity|]. split; [|split; [reflexivity|split; [|vm_compute; discriminate]]].
  - exists (mk_pt 4 0, mk_pt 4 2). split; [right; left; reflexivity|]. apply on_edge_box. vm_compute. intuition discriminate.
  - intros [e [I O]]. cbn in I. repeat (destruct I as [<-|I]; [apply on_edge_box in O; vm_compute in O; intuition discriminate|]). exact I.
Qed.
Print Assumptions C30_contains_90_refuted.
Theorem C30_holes : forall g p touch, contains_wh_90 g p touch = true <->
  contains_90 (p_outer g) p touch = true /\ Forall (fun h => contains_90 h p (negb touch) = false) (p_holes g).
Proof.
  intros g p touch. unfold contains_wh_90. destruct (contains_90 (p_outer g) p touch); [|intuition discriminate].
  induction (p_holes g) as [|h hs IH]; cbn [in_no_hole]; [intuition constructor|]. destruct (contains_90 h p (negb touch)) eqn:E.
  - split; [discriminate|]. intros [_ F]. inversion F; subst. congruence.
  - rewrite IH. split; intros [_ F]; (split; [reflexivity|]); [constructor; assumption|inversion F; assumption].
Qed.
Print Assumptions C30_holes.
Example C30_demo : no_zero_edge (ring_points ell) /\ contains_90 ell (mk_pt 2 5) true = true /\ contains_90 ell (mk_pt 4 5) true = false /\
  contains_90 ell (mk_pt 3 5) true = true /\ contains_90 ell (mk_pt 3 5) false = false.
Proof. split; [unfold no_zero_edge; cbn; repeat (apply Forall_cons; [discriminate|]); constructor|]. vm_compute. repeat split; reflexivity. Qed.

(* ---------- C31 ---------- *)
Theorem C31_contains : forall l p touch, Forall pt_int l -> pt_int p -> two_points l ->
  (on_curve l p -> contains_general l p touch = touch) /\
  (~ on_curve l p -> contains_general l p touch = Z.odd (edges_below l p)).
Proof. exact contains_general_spec. Qed.
Print Assumptions C31_contains.
(* a polygon whose vertices all coincide contains nothing *)
Theorem C31_contains_degenerate : forall l p touch, ~ two_points l -> contains_general l p touch = false.
Proof. exact contains_general_degenerate. Qed.
Print Assumptions C31_contains_degenerate.
(* what is counted: edges that own the column of p and pass strictly below p *)
Theorem C31_below : forall p a b h, px a <> px b -> on_seg (mk_seg a b) (inject_Z (px p), h) ->
  (below p (a, b) = true <-> Z.min (px a) (px b) <= px p < Z.max (px a) (px b) /\ (h < inject_Z (py p))%Q).
Proof.
  intros p a b h N H. rewrite below_eq, !andb_true_iff, Z.leb_le, !Z.ltb_lt.
  assert (K : exists d k, 0 < d /\ (if px a <? px b then sd a b p else sd b a p) = k /\ (inject_Z k == inject_Z d * (inject_Z (py p) - h))%Q).
  { destruct (Z.ltb_spec (px a) (px b)) as [O|O].
    - exists (px b - px a), (sd a b p). split; [lia|]. split; [reflexivity|]. apply sd_height, H.
    - exists (px a - px b), (sd b a p). split; [lia|]. split; [reflexivity|]. apply sd_height, on_seg_sym, H. }
  destruct K as [d [k [D [-> E]]]].
  assert (DQ : (0 < inject_Z d)%Q) by (change 0%Q with (inject_Z 0); rewrite <- Zlt_Qlt; exact D).
  set (y := inject_Z (py p)) in *. clearbody y.
  assert (K1 : 0 < k <-> (h < y)%Q).
  { rewrite Zlt_Qlt, E. change (inject_Z 0) with 0%Q. split; intros G; [|nra]. destruct (Qlt_le_dec h y); [assumption|nra]. }
  rewrite K1. tauto.
Qed.
Print Assumptions C31_below.
(* the inside does not depend on the start vertex, the direction, or on looking
   upwards instead of downwards, and does not change along a way that avoids the curve *)
Theorem C31_independent : forall l m p, edges_below (l ++ m) p = edges_below (m ++ l) p /\ edges_below (rev l) p = edges_below l p.
Proof. intros l m p. split; [apply edges_below_rotate|apply edges_below_rev]. Qed.
Print Assumptions C31_independent.
Theorem C31_up_down : forall l p, ~ on_curve l p -> Z.odd (edges_above l p) = Z.odd (edges_below l p).
Proof. exact above_below. Qed.
Print Assumptions C31_up_down.
Theorem C31_connected : forall l p q, avoids l p q -> (inside l p <-> inside l q).
Proof. intros l p q H. unfold inside. rewrite (below_const l p q H). tauto. Qed.
Print Assumptions C31_connected.
Theorem C31_bounded : forall l p box, l <> [] -> on_curve l p \/ inside l p ->
  let r := snd (points_extents box l) in xl r <= px p <= xh r /\ yl r <= py p <= yh r.
Proof. intros l p box N H. cbv zeta. apply (inside_box_of l); [apply (points_extents_spec box l); exact N|exact H]. Qed.
Print Assumptions C31_bounded.
Theorem C31_holes : forall g p touch, contains_wh g p touch = true <->
  contains_general (g_outer g) p touch = true /\ Forall (fun h => contains_general h p (negb touch) = false) (g_holes g).
Proof.
  intros g p touch. unfold contains_wh. destruct (contains_general (g_outer g) p touch); [|intuition discriminate].
  induction (g_holes g) as [|h hs IH]; cbn [in_no_hole]; [intuition constructor|]. destruct (contains_general h p (negb touch)) eqn:E.
  - split; [discriminate|]. intros [_ F]. inversion F; subst. congruence.
  - rewrite IH. split; intros [_ F]; (split; [reflexivity|]); [constructor; assumption|inversion F; assumption].
Qed.
Print Assumptions C31_holes.
Example C31_demo : Forall pt_int notch /\ two_points notch /\ contains_general notch (mk_pt 4 4) true = true /\ contains_general notch (mk_pt 4 4) false = false /\
  contains_general notch (mk_pt 4 5) true = false /\ contains_general notch (mk_pt 4 3) false = true /\ contains_general notch (mk_pt 0 8) true = true.
Proof.
  split; [|split; [|vm_compute; repeat split; reflexivity]].
  - repeat (apply Forall_cons; [unfold pt_int, is_int, INT_MIN, INT_MAX; cbn [px py]; lia|]). constructor.
  - exists (mk_pt 0 0), (mk_pt 8 0). split; [left; reflexivity|]. split; [right; left; reflexivity|discriminate].
Qed.

(* ---------- C32 ---------- *)
Theorem C32_is_45_partial : forall l r, points_is45 l = Ok r -> (r = true <-> cycle_45 l).
Proof. exact points_is45_inv. Qed.
Print Assumptions C32_is_45_partial.
Theorem C32_is_45_defined : forall l, Forall (pt_fits (2 ^ 30 - 1)) l -> exists r, points_is45 l = Ok r.
Proof. exact points_is45_ok. Qed.
Print Assumptions C32_is_45_defined.
(* with holes, the outer boundary alone decides *)
Theorem C32_is_45_holes_actual : forall g r, poly_is45 g = Ok r -> (r = true <-> cycle_45 (g_outer g)).
Proof. exact poly_is45_inv. Qed.
Print Assumptions C32_is_45_holes_actual.
Theorem C32_is_45_holes_refuted : exists g, poly_is45 g = Ok true /\ ~ gpoly_45 g.
Proof.
  exists (mk_gpoly [mk_pt 0 0; mk_pt 9 0; mk_pt 9 9; mk_pt 0 9] [[mk_pt 1 1; mk_pt 3 2; mk_pt 2 3]]). split; [reflexivity|].
  intros [_ H]. inversion H as [|h hs H1 H2]; subst. unfold cycle_45 in H1. cbn in H1. inversion H1 as [|e es H3 H4]; subst.
  unfold edge_45, axis_edge in H3. cbn [fst snd px py] in H3. lia.
Qed.
Print Assumptions C32_is_45_holes_refuted.
Example C32_demo : points_is45 notch = Ok true /\ points_is45 [mk_pt 0 0; mk_pt 3 1; mk_pt 0 2] = Ok false /\ Forall (pt_fits (2 ^ 30 - 1)) notch.
Proof. split; [reflexivity|]. split; [reflexivity|]. repeat (apply Forall_cons; [unfold pt_fits; cbn [px py]; lia|]). constructor. Qed.

(* ---------- C33 ---------- *)
Theorem C33_equal_slope : forall p a b, pt_int p -> pt_int a -> pt_int b ->
  (eu_equal_slope p a b = true <-> side (mk_seg a b) p = 0).
Proof. exact equal_slope_spec. Qed.
Print Assumptions C33_equal_slope.
Theorem C33_less_slope : forall p a b, pt_int p -> pt_int a -> pt_int b ->
  (eu_less_slope p a b = true <-> slope_lt (slope (px a - px p) (py a - py p)) (slope (px b - px p) (py b - py p))).
Proof. exact less_slope_spec. Qed.
Print Assumptions C33_less_slope.
Theorem C33_on_above_or_below : forall p a b h, pt_int p -> pt_int a -> pt_int b -> px a <> px b ->
  Z.min (px a) (px b) <= px p <= Z.max (px a) (px b) -> on_seg (mk_seg a b) (inject_Z (px p), h) ->
  (eu_on_above_or_below p a b = 1 <-> (h < inject_Z (py p))%Q) /\
  (eu_on_above_or_below p a b = 0 <-> (h == inject_Z (py p))%Q) /\
  (eu_on_above_or_below p a b = -1 <-> (inject_Z (py p) < h)%Q).
Proof. exact oab_height. Qed.
Print Assumptions C33_on_above_or_below.
Example C33_demo :
  let a := mk_pt INT_MIN INT_MIN in let b := mk_pt INT_MAX (INT_MAX - 1) in
  pt_int a /\ pt_int b /\ eu_on_above_or_below (mk_pt 0 0) a b = 1 /\ eu_on_above_or_below (mk_pt 0 (-1)) a b = -1 /\
  eu_less_slope a (mk_pt INT_MAX (INT_MAX - 1)) (mk_pt INT_MAX INT_MAX) = true /\ eu_equal_slope a b b = true.
Proof. cbv zeta. split; [|split; [|vm_compute; repeat split; reflexivity]]; unfold pt_int, is_int, INT_MIN, INT_MAX; cbn [px py]; lia. Qed.

(* ---------- C11, polygons ---------- *)
Theorem C11_polygon_extents : forall box l,
  (l = [] -> points_extents box l = (false, box)) /\
  (l <> [] -> fst (points_extents box l) = true /\ box_of l (snd (points_extents box l))).
Proof.
  intros box l. destruct (points_extents_spec box l) as [A B]. split; [exact A|]. intros N. destruct (B N) as [B1 B2]. split; [exact B1|]. apply tight_box. exact B2.
Qed.
Print Assumptions C11_polygon_extents.
(* the box also holds the boundary and the inside *)
Theorem C11_polygon_extents_inside : forall box l p, l <> [] -> on_curve l p \/ inside l p ->
  in_rectq true (snd (points_extents box l)) (qpt p).
Proof.
  intros box l p N H. pose proof (C31_bounded l p box N H) as K. cbv zeta in K. unfold in_rectq, in_ivl, horizontal, vertical, qpt. cbn [lo hi fst snd].
  rewrite <- !Zle_Qle. lia.
Qed.
Print Assumptions C11_polygon_extents_inside.
Example C11_polygon_demo : points_extents (mk_rect 9 9 9 9) notch = (true, mk_rect 0 8 0 8).
Proof. reflexivity. Qed.

(* ---------- C45 ---------- *)
Theorem C45_perimeter : forall g v, poly_perimeter_90 g = Ok v ->
  v = zsum edge_len (cyc_edges (compact_to_points (p_outer g))) +
      zsum (fun h => zsum edge_len (cyc_edges (compact_to_points h))) (p_holes g).
Proof. exact poly_perimeter_inv. Qed.
Print Assumptions C45_perimeter.
Theorem C45_perimeter_defined : forall l, Forall (pt_fits (2 ^ 30 - 1)) l -> rectilinear l -> Z.of_nat (length l) < 2 ^ 32 ->
  exists v, points_perimeter l = Ok v.
Proof. exact points_perimeter_ok. Qed.
Print Assumptions C45_perimeter_defined.
Example C45_demo : poly_perimeter_90 (mk_poly90 ell [[1; 1; 2; 3]]) = Ok 28.
Proof. reflexivity. Qed.

(* ---------- C46 ---------- *)
Theorem C46_rectangle_90 : forall r p touch, xl r < xh r -> yl r < yh r -> contains_90 (poly90_of_rect r) p touch = r_contains_pt r p touch.
Proof. exact rect_contains_90. Qed.
Print Assumptions C46_rectangle_90.
Theorem C46_rectangle : forall r p touch, xl r < xh r -> yl r < yh r -> Forall pt_int (poly_of_rect r) -> pt_int p ->
  contains_general (poly_of_rect r) p touch = r_contains_pt r p touch.
Proof. exact rect_contains. Qed.
Print Assumptions C46_rectangle.
(* the boundary is counterclockwise, and the area and the extents are those of the rectangle *)
Theorem C46_rectangle_measures : forall r box, xl r <= xh r -> yl r <= yh r ->
  shoelace2 (poly_of_rect r) = 2 * ((xh r - xl r) * (yh r - yl r)) /\ points_extents box (poly_of_rect r) = (true, r) /\
  compact_to_points (poly90_of_rect r) = if xl r =? xh r then [mk_pt (xl r) (yl r); mk_pt (xl r) (yl r); mk_pt (xl r) (yh r)] else poly_of_rect r.
Proof.
  intros r box X Y. split; [|split].
  - unfold shoelace2, poly_of_rect, zsum. cbn [cyc_edges app combine fold_right fst snd px py]. ring.
  - assert (B : snd (points_extents box (poly_of_rect r)) = r).
    { destruct (points_extents_spec box (poly_of_rect r)) as [_ K]. destruct (K ltac:(discriminate)) as [_ [T1 [[p1 [I1 E1]] [[p2 [I2 E2]] [[p3 [I3 E3]] [p4 [I4 E4]]]]]]].
      set (s := snd (points_extents box (poly_of_rect r))) in *. clearbody s.
      pose proof (T1 (mk_pt (xl r) (yl r)) ltac:(cbn; tauto)) as T2. pose proof (T1 (mk_pt (xh r) (yh r)) ltac:(cbn; tauto)) as T3. cbn [px py] in T2, T3.
      assert (P : forall p, In p (poly_of_rect r) -> xl r <= px p <= xh r /\ yl r <= py p <= yh r).
      { intros p [<-|[<-|[<-|[<-|[]]]]]; cbn [px py]; lia. }
      apply P in I1, I2, I3, I4. destruct r as [a b c d], s as [a' b' c' d']; cbn [xl xh yl yh] in *. f_equal; lia. }
    rewrite (surjective_pairing (points_extents box (poly_of_rect r))), B. reflexivity.
  - unfold poly90_of_rect, poly_of_rect, points_to_compact. cbn [ptc_go pt_get perp px py compact_to_points ctp_go].
    destruct (Z.eqb_spec (xl r) (xh r)) as [E|E].
    + rewrite <- E. cbn [ctp_go pt_set pt_get perp px py]. rewrite ?Z.eqb_refl. reflexivity.
    + cbn [ctp_go pt_set pt_get perp px py]. replace (xh r =? xl r) with false by lia. reflexivity.
Qed.
Print Assumptions C46_rectangle_measures.
Example C46_demo : poly90_of_rect (mk_rect 1 5 2 4) = [1; 2; 5; 4] /\ contains_90 (poly90_of_rect (mk_rect 1 5 2 4)) (mk_pt 5 3) true = true.
Proof. split; reflexivity. Qed.

(* ---------- C47 ---------- *)
(* convolve and move *)
Theorem C47_convolve : forall d l m p touch, convolve_pts d l = Ok m -> Forall pt_int l -> pt_int p -> pt_int (shift_by d p) ->
  m = map (shift_by d) l /\ contains_general m (shift_by d p) touch = contains_general l p touch.
Proof.
  intros d l m p touch H I J J2. unfold convolve_pts in H.
  assert (M : m = map (shift_by d) l) by (apply (map_points_inv _ _ _ _ (fun q r Hq => proj1 (convolve_inv q d r Hq)) H)).
  split; [exact M|]. subst m. apply contains_general_map; try assumption; [apply keeps_shift|apply shift_inj|].
  apply (map_points_all _ pt_int _ _ (fun q r Hq => proj2 (convolve_inv q d r Hq)) H).
Qed.
Print Assumptions C47_convolve.
Theorem C47_convolve_90 : forall d l m p touch, convolve_90 d l = Ok m -> Nat.Even (length l) -> no_zero_edge (ring_points l) ->
  ring_points m = map (shift_by d) (ring_points l) /\ contains_90 m (shift_by d p) touch = contains_90 l p touch.
Proof.
  intros d l m p touch H E Z0. destruct (convolve_90_ring d l m E H) as [R L]. split; [exact R|].
  apply contains_90_ring; try assumption; [apply keeps_shift|apply shift_inj|rewrite L; exact E].
Qed.
Print Assumptions C47_convolve_90.
Theorem C47_move : forall o d l, move_90 o d l = convolve_90 (match o with Horizontal => mk_pt d 0 | Vertical => mk_pt 0 d end) l.
Proof. reflexivity. Qed.
Print Assumptions C47_move.
(* transform with any of the eight axis transformations *)
Theorem C47_transform : forall a l m p touch, 0 <= a < 8 -> transform_pts (atr_int a) l = Ok m -> Forall pt_int l -> pt_int p -> pt_int (atr_pt a p) ->
  m = map (atr_pt a) l /\ contains_general m (atr_pt a p) touch = contains_general l p touch.
Proof.
  intros a l m p touch A H I J J2. unfold transform_pts in H.
  assert (M : m = map (atr_pt a) l) by (apply (map_points_inv _ _ _ _ (fun q r Hq => proj1 (atr_int_inv a q r Hq)) H)).
  split; [exact M|]. subst m. apply contains_general_map; try assumption; [apply keeps_atr, A|apply atr_inj, A|].
  apply (map_points_all _ pt_int _ _ (fun q r Hq => proj2 (atr_int_inv a q r Hq)) H).
Qed.
Print Assumptions C47_transform.
Theorem C47_transform_90 : forall a l m p touch, 0 <= a < 8 -> transform_90 (atr_int a) l = Ok m -> Nat.Even (length l) -> no_zero_edge (ring_points l) ->
  (exists u v, map (atr_pt a) (ring_points l) = u ++ v /\ ring_points m = v ++ u) /\
  contains_90 m (atr_pt a p) touch = contains_90 l p touch.
Proof.
  intros a l m p touch A H E Z0. apply (map_compact_inv _ _ _ _ (fun q r Hq => proj1 (atr_int_inv a q r Hq))) in H. subst m. split.
  - rewrite (ring_map _ _ _ E Z0 (dir_atr a A)). destruct (4 <=? a).
    + destruct (map (atr_pt a) (ring_points l)) as [|f t]; [exists [], []; split; reflexivity|]. exists [f], t. split; reflexivity.
    + exists [], (map (atr_pt a) (ring_points l)). rewrite app_nil_r. split; reflexivity.
  - apply (contains_90_map (4 <=? a)); try assumption; [apply keeps_atr, A|apply atr_inj, A|apply dir_atr, A].
Qed.
Print Assumptions C47_transform_90.
Theorem C47_transform_defined : forall a l, 0 <= a < 8 -> Forall (fun p => pt_int p /\ px p <> INT_MIN /\ py p <> INT_MIN) l ->
  transform_pts (atr_int a) l = Ok (map (atr_pt a) l).
Proof.
  intros a l A F. apply map_points_ok. rewrite Forall_forall in F. intros p Hp. destruct (F p Hp) as [F1 [F2 F3]]. apply atr_int_ok; assumption.
Qed.
Print Assumptions C47_transform_defined.
(* scale_up by a positive factor *)
Theorem C47_scale_up : forall k l m p touch, 0 < k -> is_int k -> scale_up_pts k l = Ok m -> Forall pt_int l -> pt_int p -> pt_int (times k p) ->
  m = map (times k) l /\ contains_general m (times k p) touch = contains_general l p touch.
Proof.
  intros k l m p touch K IK H I J J2. unfold scale_up_pts in H.
  assert (M : m = map (times k) l) by (apply (map_points_inv _ _ _ _ (fun q r Hq => proj1 (scale_inv k q r K IK Hq)) H)).
  split; [exact M|]. subst m. apply contains_general_map; try assumption; [apply keeps_times, K|apply times_inj, K|].
  apply (map_points_all _ pt_int _ _ (fun q r Hq => proj2 (scale_inv k q r K IK Hq)) H).
Qed.
Print Assumptions C47_scale_up.
Theorem C47_scale_up_90 : forall k l m p touch, 0 < k -> is_int k -> scale_up_90 k l = Ok m -> Nat.Even (length l) -> no_zero_edge (ring_points l) ->
  ring_points m = map (times k) (ring_points l) /\ contains_90 m (times k p) touch = contains_90 l p touch.
Proof.
  intros k l m p touch K IK H E Z0. apply (map_compact_inv _ _ _ _ (fun q r Hq => proj1 (scale_inv k q r K IK Hq))) in H. subst m. split.
  - rewrite (ring_map false _ _ E Z0 (dir_times k)). reflexivity.
  - apply (contains_90_map false); try assumption; [apply keeps_times, K|apply times_inj, K|apply dir_times].
Qed.
Print Assumptions C47_scale_up_90.
(* scale_down rounds every coordinate of every vertex to the nearest multiple, and undoes scale_up *)
Theorem C47_scale_down_90 : forall k l, Nat.Even (length l) -> no_zero_edge (ring_points l) ->
  ring_points (scale_down_90 k l) = map (fun p => pt_scale_down p k) (ring_points l).
Proof. intros k l E Z0. unfold scale_down_90, scale_down_pts. rewrite (ring_map false _ _ E Z0 (dir_down k)). reflexivity. Qed.
Print Assumptions C47_scale_down_90.
Theorem C47_scale_down_up : forall k l m, 0 < k -> is_int k -> scale_up_pts k l = Ok m -> scale_down_pts k m = l.
Proof.
  intros k l m K IK H. apply (map_points_inv _ _ _ _ (fun q r Hq => proj1 (scale_inv k q r K IK Hq))) in H. subst m. unfold scale_down_pts. rewrite map_map.
  rewrite <- (map_id l) at 2. apply map_ext. intros [x y]. unfold times, pt_scale_down, round_div. cbn [px py].
  assert (R : forall c, (2 * (c * k) + k) / (2 * k) = c).
  { intros c. replace (2 * (c * k) + k) with (c * (2 * k) + k) by ring. rewrite Z.div_add_l by lia. rewrite Z.div_small by lia. lia. }
  rewrite !R. reflexivity.
Qed.
Print Assumptions C47_scale_down_up.
(* a polygon with holes is mapped ring by ring *)
Theorem C47_holes : forall f g h, map_gpoly f g = Ok h <-> f (g_outer g) = Ok (g_outer h) /\ Forall2 (fun a b => f a = Ok b) (g_holes g) (g_holes h).
Proof.
  intros f [o hs] [o' hs']. unfold map_gpoly. cbn [g_outer g_holes].
  assert (M : forall ks ks', map_holes f ks = Ok ks' <-> Forall2 (fun a b => f a = Ok b) ks ks').
  { induction ks as [|k ks IH]; intros ks'; cbn [map_holes].
    - split; [intros X; assert (ks' = []) by congruence; subst; constructor|intros X; inversion X; reflexivity].
    - split.
      + intros X. destruct (f k) as [k'| |] eqn:Ek; cbn [obind] in X; try discriminate. destruct (map_holes f ks) as [t| |]; cbn [obind] in X; try discriminate.
        assert (ks' = k' :: t) by congruence. subst. constructor; [exact Ek|apply IH; reflexivity].
      + intros X. inversion X as [|a b c d X1 X2]; subst. rewrite X1. cbn [obind]. rewrite (proj2 (IH _) X2). reflexivity. }
  split.
  - intros X. destruct (f o) as [o2| |] eqn:Eo; cbn [obind] in X; try discriminate. destruct (map_holes f hs) as [t| |] eqn:Eh; cbn [obind] in X; try discriminate.
    assert (E1 : o2 = o' /\ t = hs') by (split; congruence). destruct E1 as [-> ->]. split; [reflexivity|]. apply M. exact Eh.
  - intros [X1 X2]. rewrite X1. cbn [obind]. rewrite (proj2 (M _ _) X2). reflexivity.
Qed.
Print Assumptions C47_holes.
Example C47_demo : transform_90 (atr_int SWAP_XY) ell = Ok [0; 5; 4; 3; 6; 0] /\ transform_pts (atr_int ROTATE_LEFT) notch = Ok (map (atr_pt ROTATE_LEFT) notch) /\
  convolve_90 (mk_pt 10 20) ell = Ok [10; 20; 15; 24; 13; 26] /\ scale_up_90 3 ell = Ok [0; 0; 15; 12; 9; 18] /\ scale_down_90 3 [0; 0; 15; 12; 9; 18] = ell /\
  transform_pts (atr_int FLIP_X) [mk_pt INT_MIN 0] = Overflow.
Proof. vm_compute. repeat split; reflexivity. Qed.

(* ---------- C48 ---------- *)
Theorem C48_snap_partial : forall l r, snap_points l = Ok r ->
  let l0 := snap_prepare l in
  (length r = length l0 /\
   forall j, (1 <= j < length r)%nat -> edge_45 (nth j r (mk_pt 0 0), nth ((j + 1) mod length r) r (mk_pt 0 0))) /\
  (axis_edge (nth 0 l0 (mk_pt 0 0), nth 1 l0 (mk_pt 0 0)) -> cycle_45 r).
Proof. intros l r H. cbv zeta. split; [exact (snap_points_but_first l r H)|exact (snap_points_axis l r H)]. Qed.
Print Assumptions C48_snap_partial.
(* the first edge may be left with any slope *)
Theorem C48_snap_refuted : exists l r, snap_points l = Ok r /\ points_is45 r = Ok false.
Proof. exists [mk_pt 0 0; mk_pt 10 10; mk_pt 10 20], [mk_pt (-5) 5; mk_pt 10 10; mk_pt 10 20]. split; vm_compute; reflexivity. Qed.
Print Assumptions C48_snap_refuted.
Theorem C48_snap_keeps_45 : forall l, Forall (pt_fits (2 ^ 30 - 1)) l -> cycle_45 (snap_prepare l) -> snap_points l = Ok (snap_prepare l).
Proof. exact snap_points_id. Qed.
Print Assumptions C48_snap_keeps_45.
Theorem C48_snap_prepare : forall l, no_zero_edge (snap_prepare l) /\ (forall p, In p (snap_prepare l) -> In p l) /\
  ((3 <= length l)%nat -> no_zero_edge l -> snap_prepare l = l).
Proof. intros l. split; [apply snap_prepare_nz|]. split; [apply snap_prepare_in|apply snap_prepare_id]. Qed.
Print Assumptions C48_snap_prepare.
(* scale_down of a 45-degree polygon snaps the scaled points; holes are snapped
   ring by ring *)
Theorem C48_scale_down_45_partial : forall k l r, scale_down_45 k l = Ok r ->
  length r = length (snap_prepare (scale_down_pts k l)) /\
  (forall j, (1 <= j < length r)%nat -> edge_45 (nth j r (mk_pt 0 0), nth ((j + 1) mod length r) r (mk_pt 0 0))).
Proof. intros k l r H. exact (snap_points_but_first _ _ H). Qed.
Print Assumptions C48_scale_down_45_partial.
Theorem C48_snap_rings : forall g g', snap_gpoly g = Ok g' ->
  snap_points (g_outer g) = Ok (g_outer g') /\ Forall2 (fun h h' => snap_points h = Ok h') (g_holes g) (g_holes g').
Proof.
  intros [o hs] g'. unfold snap_gpoly, map_gpoly. cbn [g_outer g_holes]. intros H.
  destruct (snap_points o) as [o'| |]; try discriminate H. cbn [obind] in H.
  destruct (map_holes snap_points hs) as [ks| |] eqn:E; try discriminate H. cbn [obind] in H.
  assert (G : g' = mk_gpoly o' ks) by congruence. subst g'. cbn [g_outer g_holes]. split; [reflexivity|]. clear H.
  revert ks E. induction hs as [|h hs IH]; intros ks E; cbn [map_holes] in E.
  - assert (K : ks = []) by congruence. subst ks. constructor.
  - destruct (snap_points h) as [h'| |] eqn:Eh; try discriminate E. cbn [obind] in E.
    destruct (map_holes snap_points hs) as [t| |]; try discriminate E. cbn [obind] in E.
    assert (K : ks = h' :: t) by congruence. subst ks. constructor; [exact Eh|exact (IH t eq_refl)].
Qed.
Print Assumptions C48_snap_rings.
Example C48_scale_down_demo : scale_down_45 10 [mk_pt 0 0; mk_pt 100 0; mk_pt 107 7; mk_pt 0 114] = Ok [mk_pt 0 0; mk_pt 10 0; mk_pt 11 1; mk_pt 0 12].
Proof. vm_compute. reflexivity. Qed.
Example C48_demo : snap_points [mk_pt 0 0; mk_pt 10 0; mk_pt 17 5; mk_pt 20 20; mk_pt 0 9] =
    Ok [mk_pt 0 0; mk_pt 10 0; mk_pt 16 6; mk_pt 25 15; mk_pt 0 (-10)] /\ snap_points notch = Ok notch.
Proof. split; vm_compute; reflexivity. Qed.
