(* C24-C26, C43: segments. *)
From Coq Require Import Qround.
From Verif Require Import Base Scan90Spec Set90Spec Set90Model GeoSpec IvlModel RectModel RectProofs RectArith RectDist SegModel SegProofs SegMeet SegDist SegMaps.

(* ---------- C24: orientation ---------- *)
(* cross and side are the cross products of GeoSpec.v; Ok also says that no
   signed operation overflows *)
Theorem C24_orientation : forall s t, seg_int s -> seg_int t -> seg_orientation s t = Ok (Z.sgn (cross s t)).
Proof. exact orientation_eq. Qed.
Theorem C24_orientation_point : forall s p, seg_int s -> pt_int p -> seg_orientation_pt s p = Ok (Z.sgn (side s p)).
Proof. exact orientation_pt_eq. Qed.
Theorem C24_orientation_antisymmetric : forall s t, seg_int s -> seg_int t ->
  exists o, seg_orientation s t = Ok o /\ seg_orientation t s = Ok (- o).
Proof.
  intros s t A B. exists (Z.sgn (cross s t)). rewrite !orientation_eq by assumption. split; [reflexivity|]. f_equal.
  rewrite <- Z.sgn_opp. f_equal. unfold cross. ring.
Qed.
Example C24_hypotheses :
  let s := mk_seg (mk_pt INT_MIN INT_MIN) (mk_pt INT_MAX INT_MAX) in
  seg_int s /\ seg_orientation s (mk_seg (mk_pt INT_MIN INT_MIN) (mk_pt INT_MAX (INT_MAX - 1))) = Ok (-1) /\
  seg_orientation s (mk_seg (mk_pt INT_MIN INT_MIN) (mk_pt (INT_MAX - 1) INT_MAX)) = Ok 1 /\
  seg_orientation_pt s (mk_pt 5 5) = Ok 0.
Proof. vm_compute. repeat split; discriminate. Qed.

(* ---------- C25: containment, intersection, abutment ---------- *)
Theorem C25_contains_point : forall s p touch, seg_int s -> pt_int p -> exists b, seg_contains_pt s p touch = Ok b /\
  (b = true <-> on_seg s (qpt p) /\ (touch = false -> p <> s_low s /\ p <> s_high s)).
Proof. exact contains_pt_eq. Qed.
Theorem C25_contains_segment : forall s1 s2, seg_int s1 -> seg_int s2 -> exists b, seg_contains s1 s2 true = Ok b /\
  (b = true <-> forall q, on_seg s2 q -> on_seg s1 q).
Proof. exact contains_seg_eq. Qed.
Theorem C25_contains_segment_open : forall s1 s2, seg_int s1 -> seg_int s2 -> exists b, seg_contains s1 s2 false = Ok b /\
  (b = true <-> forall q, on_seg s2 q -> on_seg s1 q /\ ~ seg_end s1 q).
Proof. exact contains_seg_open. Qed.
Theorem C25_intersects : forall s1 s2, seg_int s1 -> seg_int s2 -> exists b, seg_intersects s1 s2 true = Ok b /\
  (b = true <-> exists q, on_seg s1 q /\ on_seg s2 q).
Proof.
  intros s1 s2 A B. destruct (intersects_eq s1 s2 true A B) as [b [E F]]. exists b. split; [exact E|]. rewrite F.
  split; intros [q H]; exists q; [tauto|]. destruct H. repeat split; try assumption. discriminate.
Qed.
(* consider_touch = false: a common point that is not an end point of both *)
Theorem C25_intersects_open : forall s1 s2, seg_int s1 -> seg_int s2 -> exists b, seg_intersects s1 s2 false = Ok b /\
  (b = true <-> exists q, on_seg s1 q /\ on_seg s2 q /\ ~ (seg_end s1 q /\ seg_end s2 q)).
Proof.
  intros s1 s2 A B. destruct (intersects_eq s1 s2 false A B) as [b [E F]]. exists b. split; [exact E|]. rewrite F.
  split; intros [q [H1 [H2 H3]]]; exists q; repeat split; try assumption; [apply H3; reflexivity|intros _; exact H3].
Qed.
Theorem C25_intersects_symmetric : forall s1 s2 touch, seg_int s1 -> seg_int s2 -> seg_intersects s1 s2 touch = seg_intersects s2 s1 touch.
Proof.
  intros s1 s2 touch A B. destruct (intersects_eq s1 s2 touch A B) as [b [E F]]. destruct (intersects_eq s2 s1 touch B A) as [c [E' F']].
  rewrite E, E'. f_equal. apply eq_true_iff_eq. rewrite F, F'. split; intros [q [H1 [H2 H3]]]; exists q; tauto.
Qed.
Theorem C25_abuts : forall s1 s2, seg_abuts s1 s2 = true <-> s_high s1 = s_low s2 \/ s_high s2 = s_low s1.
Proof.
  intros s1 s2. unfold seg_abuts, seg_abuts_dir. rewrite orb_true_iff, !pt_eqb_spec. split; intros [H|H]; auto.
Qed.
Theorem C25_abuts_direction : forall s1 s2 high, seg_abuts_dir s1 s2 high = true <->
  if high then s_high s1 = s_low s2 else s_high s2 = s_low s1.
Proof. intros s1 s2 [|]; unfold seg_abuts_dir; rewrite pt_eqb_spec; split; auto. Qed.
(* sharing a low end or a high end is not abutment *)
Theorem C25_abuts_shared_end_refuted : exists s1 s2 q, seg_end s1 q /\ seg_end s2 q /\ seg_abuts s1 s2 = false.
Proof.
  exists (mk_seg (mk_pt 0 0) (mk_pt 1 1)), (mk_seg (mk_pt 0 0) (mk_pt 2 0)), (qpt (mk_pt 0 0)).
  split; [left; split; reflexivity|]. split; [left; split; reflexivity|reflexivity].
Qed.
Example C25_hypotheses :
  let a := mk_seg (mk_pt 0 0) (mk_pt 3 2) in let b := mk_seg (mk_pt 0 1) (mk_pt 3 0) in
  seg_int a /\ seg_int b /\ seg_intersects a b false = Ok true /\
  seg_intersects a (mk_seg (mk_pt 3 2) (mk_pt 6 4)) true = Ok true /\ seg_intersects a (mk_seg (mk_pt 3 2) (mk_pt 6 4)) false = Ok false /\
  seg_intersects (mk_seg (mk_pt 1 1) (mk_pt 1 1)) (mk_seg (mk_pt 0 0) (mk_pt 2 2)) false = Ok true /\
  seg_contains_pt (mk_seg (mk_pt 0 0) (mk_pt 6 4)) (mk_pt 3 2) false = Ok true /\
  seg_contains (mk_seg (mk_pt 0 0) (mk_pt 6 4)) a true = Ok true /\ seg_contains (mk_seg (mk_pt 0 0) (mk_pt 6 4)) a false = Ok false /\
  seg_contains (mk_seg (mk_pt (-3) (-2)) (mk_pt 6 4)) a false = Ok true /\
  seg_abuts a (mk_seg (mk_pt 3 2) (mk_pt 6 4)) = true.
Proof. vm_compute. repeat split; discriminate. Qed.

(* ---------- C26: distances ---------- *)
(* the model returns squares; the floating-point part is exact arithmetic *)
Theorem C26_distance_point : forall s p d, s_low s <> s_high s -> seg_dist_sq_pt s p = Ok d ->
  least_of sq_dist (on_seg s) (fun q => same_pt q (qpt p)) d.
Proof. exact dist_pt_least. Qed.
Theorem C26_distance_point_zero : forall s p d, s_low s <> s_high s -> seg_dist_sq_pt s p = Ok d ->
  ((d == 0)%Q <-> on_seg s (qpt p)).
Proof. intros s p d N H. exact (least_zero s p d (dist_pt_least s p d N H)). Qed.
Theorem C26_distance_point_defined : forall s p,
  (forall z, In z [px (s_low s); py (s_low s); px (s_high s); py (s_high s); px p; py p] -> - 2 ^ 30 <= z < 2 ^ 30) ->
  exists d, seg_dist_sq_pt s p = Ok d.
Proof. intros s p H. apply dist_pt_ok; split; apply H; cbn [In]; tauto. Qed.
Theorem C26_distance_segment : forall s1 s2 d, seg_int s1 -> seg_int s2 -> s_low s1 <> s_high s1 -> s_low s2 <> s_high s2 ->
  seg_dist_sq s1 s2 = Ok d -> least_of sq_dist (on_seg s1) (on_seg s2) d.
Proof. exact dist_seg_least. Qed.
Theorem C26_distance_segment_defined : forall s1 s2,
  (forall z, In z [px (s_low s1); py (s_low s1); px (s_high s1); py (s_high s1); px (s_low s2); py (s_low s2); px (s_high s2); py (s_high s2)] -> - 2 ^ 30 <= z < 2 ^ 30) ->
  exists d, seg_dist_sq s1 s2 = Ok d.
Proof. intros s1 s2 H. apply dist_seg_ok; split; apply H; cbn [In]; tauto. Qed.
(* a degenerate segment is at distance 0 from every point and every segment *)
Theorem C26_degenerate_refuted : exists s p, s_low s = s_high s /\ seg_dist_sq_pt s p = Ok 0%Q /\ ~ on_seg s (qpt p).
Proof.
  exists (mk_seg (mk_pt 0 0) (mk_pt 0 0)), (mk_pt 3 4). split; [reflexivity|]. split; [reflexivity|].
  intros H. apply on_seg_pt in H as [_ [H _]]. vm_compute in H. discriminate.
Qed.
Theorem C26_degenerate : forall s p, s_low s = s_high s -> seg_dist_sq_pt s p = Ok 0%Q.
Proof.
  intros s p E. unfold seg_dist_sq_pt. cbv zeta. rewrite E, !Z.sub_diag, !Z.mul_0_r. reflexivity.
Qed.
Theorem C26_degenerate_segment_refuted : exists s1 s2, s_low s1 <> s_high s1 /\ s_low s2 = s_high s2 /\
  seg_intersects s1 s2 true = Ok false /\ exists d, seg_dist_sq s1 s2 = Ok d /\ (d == 0)%Q.
Proof.
  exists (mk_seg (mk_pt 0 0) (mk_pt 1 0)), (mk_seg (mk_pt 5 5) (mk_pt 5 5)). split; [discriminate|]. split; [reflexivity|]. split; [reflexivity|].
  eexists. split; [vm_compute; reflexivity|reflexivity].
Qed.
Theorem C26_overflow_refuted : exists s p, seg_int s /\ pt_int p /\ s_low s <> s_high s /\ seg_dist_sq_pt s p = Overflow.
Proof.
  exists (mk_seg (mk_pt (-2000000000) 0) (mk_pt (-1000000000) 0)), (mk_pt 2000000000 0).
  split; [vm_compute; repeat split; discriminate|]. split; [vm_compute; repeat split; discriminate|]. split; [discriminate|vm_compute; reflexivity].
Qed.
Example C26_hypotheses :
  let s := mk_seg (mk_pt 0 0) (mk_pt 4 3) in
  s_low s <> s_high s /\ (exists d, seg_dist_sq_pt s (mk_pt 0 5) = Ok d /\ (d == 16)%Q) /\ seg_dist_sq_pt s (mk_pt 7 7) = Ok 25%Q /\
  (exists d, seg_dist_sq s (mk_seg (mk_pt 0 5) (mk_pt (-9) 9)) = Ok d /\ (d == 16)%Q).
Proof.
  cbv zeta. split; [discriminate|]. split; [eexists; split; [vm_compute; reflexivity|reflexivity]|].
  split; [reflexivity|eexists; split; [vm_compute; reflexivity|reflexivity]].
Qed.

(* ---------- C43: maps, order, envelope ---------- *)
Theorem C43_convolve : forall s v s', seg_convolve s v = Ok s' ->
  forall q, on_seg s' q <-> on_seg s (fst q - inject_Z (px v), snd q - inject_Z (py v))%Q.
Proof. exact seg_convolve_on. Qed.
Theorem C43_deconvolve : forall s v s', seg_deconvolve s v = Ok s' ->
  forall q, on_seg s' q <-> on_seg s (fst q + inject_Z (px v), snd q + inject_Z (py v))%Q.
Proof. exact seg_deconvolve_on. Qed.
Theorem C43_move : forall s o d s', seg_move s o d = Ok s' ->
  forall q, on_seg s' q <-> on_seg s (match o with Horizontal => (fst q - inject_Z d, snd q) | Vertical => (fst q, snd q - inject_Z d) end)%Q.
Proof. exact seg_move_on. Qed.
Theorem C43_scale_up : forall s k s', 0 < k -> is_int k -> seg_scale_up s k = Ok s' ->
  forall q, on_seg s' q <-> on_seg s (fst q / inject_Z k, snd q / inject_Z k)%Q.
Proof. exact seg_scale_up_on. Qed.
Theorem C43_transform : forall f m s s', amap_ok m ->
  (forall p p', f p = Ok p' -> same_pt (inject_Z (fst p'), inject_Z (snd p')) (amap_at m (inject_Z (fst p), inject_Z (snd p)))) ->
  seg_transform f s = Ok s' -> forall q, on_seg s' (amap_at m q) <-> on_seg s q.
Proof. exact seg_transform_on. Qed.
(* the order of the ends is kept *)
Theorem C43_ends : forall f s s', seg_map f s = Ok s' -> f (s_low s) = Ok (s_low s') /\ f (s_high s) = Ok (s_high s').
Proof. exact seg_map_inv. Qed.
Theorem C43_convolve_inverse : forall s v s', seg_int s -> seg_convolve s v = Ok s' -> seg_deconvolve s' v = Ok s.
Proof. exact seg_convolve_inverse. Qed.
Theorem C43_deconvolve_inverse : forall s v s', seg_int s -> seg_deconvolve s v = Ok s' -> seg_convolve s' v = Ok s.
Proof. exact seg_deconvolve_inverse. Qed.
Theorem C43_move_inverse : forall s o d s', seg_int s -> seg_move s o d = Ok s' -> seg_move s' o (- d) = Ok s.
Proof. exact seg_move_inverse. Qed.
Theorem C43_scale_inverse : forall s k s', 0 < k -> is_int k -> seg_int s -> seg_scale_up s k = Ok s' -> seg_scale_down s' k = Ok s.
Proof. exact seg_scale_inverse. Qed.
Theorem C43_center_defined : forall s, (exists c, seg_center s = Ok c) <->
  is_int (px (s_low s) + px (s_high s)) /\ is_int (py (s_low s) + py (s_high s)).
Proof. exact seg_center_defined. Qed.
Theorem C43_center : forall s c, seg_center s = Ok c ->
  2 * Z.abs (px c) <= Z.abs (px (s_low s) + px (s_high s)) < 2 * Z.abs (px c) + 2 /\ 0 <= px c * (px (s_low s) + px (s_high s)) /\
  2 * Z.abs (py c) <= Z.abs (py (s_low s) + py (s_high s)) < 2 * Z.abs (py c) + 2 /\ 0 <= py c * (py (s_low s) + py (s_high s)).
Proof. exact seg_center_spec. Qed.
Theorem C43_center_overflow_refuted : exists s, seg_int s /\ seg_center s = Overflow.
Proof.
  exists (mk_seg (mk_pt INT_MAX 0) (mk_pt 1 0)). split; [vm_compute; repeat split; discriminate|vm_compute; reflexivity].
Qed.
Theorem C43_equality : forall s t, seg_eqb s t = true <-> s = t.
Proof. exact seg_eqb_spec. Qed.
Theorem C43_less_irreflexive : forall s, seg_less s s = false.
Proof. exact seg_less_irrefl. Qed.
Theorem C43_less_transitive : forall r s t, seg_less r s = true -> seg_less s t = true -> seg_less r t = true.
Proof. exact seg_less_trans. Qed.
Theorem C43_less_total : forall s t, seg_less s t = true \/ s = t \/ seg_less t s = true.
Proof. exact seg_less_total. Qed.
Theorem C43_envelope : forall r0 l, l <> [] -> let r := snd (envelope_segments r0 l) in
  rect_ok r /\ (forall s q, In s l -> on_seg s q -> in_rectq true r q) /\
  (forall h, (forall s q, In s l -> on_seg s q -> in_rectq true h q) -> forall z, in_rectq true r z -> in_rectq true h z).
Proof. exact envelope_least. Qed.
Theorem C43_envelope_return : forall r0 l, (fst (envelope_segments r0 l) = true <-> l <> []) /\ envelope_segments r0 [] = (false, r0).
Proof. intros r0 l. split; [exact (envelope_spec r0 l)|exact (envelope_empty r0)]. Qed.
Example C43_hypotheses :
  let s := mk_seg (mk_pt 3 4) (mk_pt (-1) 0) in
  seg_int s /\ seg_convolve s (mk_pt 10 20) = Ok (mk_seg (mk_pt 13 24) (mk_pt 9 20)) /\ seg_move s Vertical 5 = Ok (mk_seg (mk_pt 3 9) (mk_pt (-1) 5)) /\
  seg_scale_up s 3 = Ok (mk_seg (mk_pt 9 12) (mk_pt (-3) 0)) /\ seg_center s = Ok (mk_pt 1 2) /\
  envelope_segments (mk_rect 0 0 0 0) [s; mk_seg (mk_pt 2 2) (mk_pt 8 (-3))] = (true, mk_rect (-1) 8 (-3) 4).
Proof. vm_compute. repeat split; discriminate. Qed.

Print Assumptions C24_orientation.
Print Assumptions C25_contains_point.
Print Assumptions C25_contains_segment_open.
Print Assumptions C25_intersects.
Print Assumptions C25_intersects_open.
Print Assumptions C26_distance_point.
Print Assumptions C26_distance_segment.
Print Assumptions C43_transform.
Print Assumptions C43_envelope.

Print Assumptions C24_orientation_point.
Print Assumptions C24_orientation_antisymmetric.
Print Assumptions C25_contains_segment.
Print Assumptions C25_intersects_symmetric.
Print Assumptions C25_abuts.
Print Assumptions C25_abuts_direction.
Print Assumptions C25_abuts_shared_end_refuted.
Print Assumptions C26_distance_point_zero.
Print Assumptions C26_distance_point_defined.
Print Assumptions C26_distance_segment_defined.
Print Assumptions C26_degenerate_refuted.
Print Assumptions C26_degenerate.
Print Assumptions C26_degenerate_segment_refuted.
Print Assumptions C26_overflow_refuted.
Print Assumptions C43_convolve.
Print Assumptions C43_deconvolve.
Print Assumptions C43_move.
Print Assumptions C43_scale_up.
Print Assumptions C43_ends.
Print Assumptions C43_convolve_inverse.
Print Assumptions C43_deconvolve_inverse.
Print Assumptions C43_move_inverse.
Print Assumptions C43_scale_inverse.
Print Assumptions C43_center_defined.
Print Assumptions C43_center.
Print Assumptions C43_center_overflow_refuted.
Print Assumptions C43_equality.
Print Assumptions C43_less_irreflexive.
Print Assumptions C43_less_transitive.
Print Assumptions C43_less_total.
Print Assumptions C43_envelope_return.
