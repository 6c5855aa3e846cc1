(* C33: the predicates of the general scan line are exact. *)
From Verif Require Import Base Units Outcome Scan90Spec Poly90Spec Poly90Model Set90Spec Set90Model GeoSpec RectModel SegModel PolyModel PolyEdge ScanBaseModel ScanBaseOab.
From Verif Require Import SnapNode SnapChain ScanBaseProofs ScanBaseGrid ScanBaseCross SnapModel SnapLoops SnapBins SnapSpec SnapProofs SnapCor.
From Coq Require Import Reals Lra.

(* on_above_or_below is the sign of the cross product of the edge, from its lower
   left end, and the point *)
Theorem C33_scan_on_above_or_below : forall p s, pt_int p -> seg_int s ->
  sb_oab p s = Z.sgn (side (mk_seg (lo_end s) (hi_end s)) p).
Proof.
  intros p s P [A B]. unfold sb_oab. rewrite (oab_exact p _ _ P A B). unfold lo_end, hi_end. change (lex_lt (s_high s) (s_low s)) with (pt_less (s_high s) (s_low s)).
  destruct (pt_less (s_high s) (s_low s)); reflexivity.
Qed.
Print Assumptions C33_scan_on_above_or_below.
Example C33_scan_on_above_or_below_demo :
  sb_oab (mk_pt INT_MAX INT_MAX) (mk_seg (mk_pt INT_MAX (INT_MAX - 1)) (mk_pt INT_MIN INT_MIN)) = 1 /\
  sb_oab (mk_pt 0 0) (mk_seg (mk_pt (-2) (-2)) (mk_pt 4 4)) = 0 /\ sb_oab (mk_pt 1 0) (mk_seg (mk_pt (-2) (-2)) (mk_pt 4 4)) = -1.
Proof. vm_compute. auto. Qed.

(* intersects: if it says yes, the closed edges have a common point *)
Theorem C33_scan_intersects_sound : forall s t, seg_int s -> seg_int t -> sb_intersects s t = true -> exists x y, on_r s x y /\ on_r t x y.
Proof. intros s t A B H. destruct (intersects_sound s t A B H) as [x [y [P Q]]]. exists x, y. split; apply on_ron; assumption. Qed.
Print Assumptions C33_scan_intersects_sound.
(* ... and it says yes if edges that are not parallel cross inside both *)
Theorem C33_scan_intersects_complete : forall s t x y, seg_int s -> seg_int t -> cross s t <> 0 ->
  on_r s x y -> on_r t x y -> ~ end_r s x y -> ~ end_r t x y -> sb_intersects s t = true.
Proof.
  intros s t x y A B N P Q ES ET. apply (intersects_complete s t x y A B); try assumption.
  - rewrite rcross_cross. intros K. apply N. apply eq_IZR. exact K.
  - split; apply on_ron; assumption.
Qed.
Print Assumptions C33_scan_intersects_complete.
Example C33_scan_intersects_demo :
  sb_intersects (mk_seg (mk_pt INT_MIN INT_MIN) (mk_pt INT_MAX INT_MAX)) (mk_seg (mk_pt INT_MIN INT_MAX) (mk_pt INT_MAX INT_MIN)) = true /\
  sb_intersects (mk_seg (mk_pt 0 0) (mk_pt 4 4)) (mk_seg (mk_pt 3 2) (mk_pt 9 2)) = false.
Proof. vm_compute. auto. Qed.
(* an edge that ends inside another one may be missed, if the bounding boxes
   only touch *)
Theorem C33_scan_intersects_touch_refuted : exists s t x y, seg_int s /\ seg_int t /\ cross s t <> 0 /\
  on_r s x y /\ on_r t x y /\ ~ end_r t x y /\ sb_intersects s t = false.
Proof.
  exists (mk_seg (mk_pt 0 0) (mk_pt 2 2)), (mk_seg (mk_pt 2 0) (mk_pt 2 4)), 2%R, 2%R.
  split; [unfold seg_int, pt_int, is_int, INT_MIN, INT_MAX; cbn; lia|]. split; [unfold seg_int, pt_int, is_int, INT_MIN, INT_MAX; cbn; lia|]. split; [vm_compute; discriminate|].
  split; [exists 1%R; cbn [s_low s_high px py]; lra|]. split; [exists (/ 2)%R; cbn [s_low s_high px py]; lra|]. split; [|vm_compute; reflexivity].
  unfold end_r, at_r. cbn [s_low s_high px py]. lra.
Qed.
Print Assumptions C33_scan_intersects_touch_refuted.

(* intersects_grid: the edge passes the half open unit square of the point *)
Theorem C33_scan_grid : forall p s, pt_int p -> seg_int s -> px p < INT_MAX -> py p < INT_MAX ->
  exists b, sb_grid p s = Ok b /\ (b = true <-> exists x y, on_r s x y /\ within (IZR (px p)) (IZR (py p)) x y).
Proof.
  intros p s A B X Y. destruct (grid_exact p s A B X Y) as [b [E H]]. exists b. split; [exact E|]. rewrite H. unfold passes.
  split; intros [x [y [P Q]]]; exists x, y; (split; [apply on_ron; exact P|apply pixel_within; exact Q]).
Qed.
Print Assumptions C33_scan_grid.
Example C33_scan_grid_demo : sb_grid (mk_pt 1 0) (mk_seg (mk_pt 0 0) (mk_pt 7 3)) = Ok true /\ sb_grid (mk_pt 1 1) (mk_seg (mk_pt 0 0) (mk_pt 7 3)) = Ok false /\
  sb_grid (mk_pt 2 1) (mk_seg (mk_pt 0 0) (mk_pt 7 3)) = Ok true.
Proof. vm_compute. auto. Qed.
(* the corners of the square are computed as ints *)
Theorem C33_scan_grid_at_limit_refuted : exists p s, pt_int p /\ seg_int s /\ sb_grid p s = Overflow.
Proof.
  exists (mk_pt INT_MAX 1), (mk_seg (mk_pt INT_MAX 7) (mk_pt 0 0)). split; [unfold pt_int, is_int, INT_MIN, INT_MAX; cbn; lia|].
  split; [unfold seg_int, pt_int, is_int, INT_MIN, INT_MAX; cbn; lia|]. vm_compute. reflexivity.
Qed.
Print Assumptions C33_scan_grid_at_limit_refuted.

(* compute_intersection does not overflow for edges that fit; a result is the
   rounded point of an intersection, and both edges pass its unit square; edges
   that cross have a result, and an intersection that is not on a vertical edge
   is rounded downwards *)
Theorem C33_scan_compute_intersection : forall s t, fits s -> fits t ->
  exists r, sb_compute_intersection s t = Ok r /\
    (forall p, r = Some p -> (exists x y, on_r s x y /\ on_r t x y /\ rounded p x y) /\
       (exists x y, on_r s x y /\ within (IZR (px p)) (IZR (py p)) x y) /\ (exists x y, on_r t x y /\ within (IZR (px p)) (IZR (py p)) x y)) /\
    (forall x y, cross s t <> 0 -> on_r s x y -> on_r t x y -> ~ end_r s x y -> ~ end_r t x y ->
       exists p, r = Some p /\ rounded p x y /\
         (px (s_low s) <> px (s_high s) -> px (s_low t) <> px (s_high t) -> within (IZR (px p)) (IZR (py p)) x y)).
Proof.
  intros s t FS FT. apply fits_small in FS, FT. destruct (compute_intersection_spec s t FS FT) as [r [E [S C]]].
  assert (PA : forall s p, passes s p -> exists x y, on_r s x y /\ within (IZR (px p)) (IZR (py p)) x y).
  { intros u p [x [y [P Q]]]. exists x, y. split; [apply on_ron; exact P|apply pixel_within; exact Q]. }
  assert (NR : forall p x y, common s t x y -> near s t p x y -> rounded p x y).
  { intros p x y [C1 C2] [N|[V [_ N]]]; [left; apply pixel_within; exact N|]. right. cbn [px py] in N. rewrite minus_IZR in N. split; [|lra].
    destruct V as [[V P]|[V P]]; rewrite P; [apply (vertical_x s x y V C1)|apply (vertical_x t x y V C2)]. }
  exists r. split; [exact E|]. split.
  - intros p P. destruct (S p P) as [_ [P1 [P2 [x [y [Q N]]]]]]. split; [|split; apply PA; assumption]. exists x, y. split; [apply on_ron; apply Q|]. split; [apply on_ron; apply Q|]. apply NR; assumption.
  - intros x y N O1 O2 E1 E2. assert (CM : common s t x y) by (split; apply on_ron; assumption).
    destruct (C x y N CM) as [p [P NP]].
    { apply (C33_scan_intersects_complete s t x y); auto using seg_small_int. }
    exists p. split; [exact P|]. split; [apply NR; assumption|]. intros V1 V2. destruct NP as [NP|[[[V _]|[V _]] _]]; [apply pixel_within; exact NP| |]; apply sb_vertical_iff in V; contradiction.
Qed.
Print Assumptions C33_scan_compute_intersection.
Example C33_scan_compute_intersection_demo :
  sb_compute_intersection (mk_seg (mk_pt 0 0) (mk_pt 9 3)) (mk_seg (mk_pt 0 3) (mk_pt 7 (-4))) = Ok (Some (mk_pt 2 0)) /\
  sb_compute_intersection (mk_seg (mk_pt (-9) 0) (mk_pt 0 (-3))) (mk_seg (mk_pt (-9) (-8)) (mk_pt (-2) 1)) = Ok (Some (mk_pt (-5) (-2))).
Proof. vm_compute. auto. Qed.
(* on a vertical edge the intersection may be rounded upwards, although
   intersections are rounded downwards elsewhere *)
Theorem C33_scan_round_down_refuted : exists s t p x y, fits s /\ fits t /\ sb_compute_intersection s t = Ok (Some p) /\
  cross s t <> 0 /\ on_r s x y /\ on_r t x y /\ (y < IZR (py p))%R.
Proof.
  exists (mk_seg (mk_pt 5 (-3)) (mk_pt 5 3)), (mk_seg (mk_pt 4 (-5)) (mk_pt 6 4)), (mk_pt 5 0), 5%R, (- / 2)%R.
  split; [unfold fits, coord_fits; cbn; lia|]. split; [unfold fits, coord_fits; cbn; lia|]. split; [vm_compute; reflexivity|]. split; [vm_compute; discriminate|].
  split; [exists (5 / 12)%R; cbn [s_low s_high px py]; lra|]. split; [exists (/ 2)%R; cbn [s_low s_high px py]; lra|]. cbn [px py]. lra.
Qed.
Print Assumptions C33_scan_round_down_refuted.
(* differences of coordinates are computed as ints *)
Theorem C33_scan_compute_intersection_long_refuted : exists s t, seg_int s /\ seg_int t /\ sb_compute_intersection s t = Overflow.
Proof.
  exists (mk_seg (mk_pt (- 2000000000) 0) (mk_pt 2000000000 10)), (mk_seg (mk_pt 0 0) (mk_pt 1 20)).
  split; [unfold seg_int, pt_int, is_int, INT_MIN, INT_MAX; cbn; lia|]. split; [unfold seg_int, pt_int, is_int, INT_MIN, INT_MAX; cbn; lia|]. vm_compute. reflexivity.
Qed.
Print Assumptions C33_scan_compute_intersection_long_refuted.
