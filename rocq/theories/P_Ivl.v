(* C15, C16 and the interval parts of C17, C18: intervals. *)
From Verif Require Import Base Scan90Spec Set90Spec Set90Model GeoSpec IvlModel IvlProofs.

(* ---------- C15: point sets ---------- *)
Theorem C15_contains_value : forall i v touch,
  contains_v i v touch = true <-> in_ivl touch i (inject_Z v).
Proof. exact contains_v_spec. Qed.
Theorem C15_contains : forall i j touch, ivl_ok j ->
  (contains_i i j touch = true <-> forall q, in_ivl true j q -> in_ivl touch i q).
Proof. exact contains_i_spec. Qed.
Theorem C15_intersects_touch : forall i j, ivl_ok i -> ivl_ok j ->
  (intersects_i i j true = true <-> exists q, in_ivl true i q /\ in_ivl true j q).
Proof. exact intersects_touch. Qed.
Theorem C15_intersects_open : forall i j, lo i < hi i -> lo j < hi j ->
  (intersects_i i j false = true <-> exists q, in_ivl false i q /\ in_ivl false j q).
Proof. exact intersects_open. Qed.
(* a degenerate interval counts as the point it consists of *)
Theorem C15_intersects_open_degenerate : forall i j, lo i = hi i ->
  (intersects_i i j false = true <-> in_ivl false j (inject_Z (lo i))).
Proof. exact intersects_open_deg. Qed.
Theorem C15_boundaries_intersect : forall i j touch,
  boundaries_intersect_i i j touch = true <->
  (exists v, end_point j v /\ in_ivl touch i (inject_Z v)) /\
  (exists v, end_point i v /\ in_ivl touch j (inject_Z v)).
Proof. exact boundaries_spec. Qed.
Theorem C15_abuts : forall i j, lo i < hi i -> lo j < hi j ->
  (abuts_i i j = true <->
   (exists q, in_ivl true i q /\ in_ivl true j q) /\ ~ (exists q, in_ivl false i q /\ in_ivl false j q)).
Proof. exact abuts_spec. Qed.
Theorem C15_abuts_high : forall i j, abuts_dir_i i j true = true <-> hi i = lo j.
Proof. exact abuts_dir_spec. Qed.
Theorem C15_abuts_low : forall i j, abuts_dir_i i j false = true <-> hi j = lo i.
Proof. exact abuts_dir_spec2. Qed.
Theorem C15_intersect_touch : forall i j, ivl_ok i -> ivl_ok j ->
  (fst (intersect_i i j true) = true <-> exists q, in_ivl true i q /\ in_ivl true j q).
Proof. exact intersect_i_touch. Qed.
Theorem C15_intersect_open : forall i j,
  (fst (intersect_i i j false) = true <-> exists q, in_ivl false i q /\ in_ivl false j q).
Proof. exact intersect_i_open. Qed.
Theorem C15_intersect_points : forall i j touch,
  (fst (intersect_i i j touch) = true ->
     (forall q, in_ivl true (snd (intersect_i i j touch)) q <-> in_ivl true i q /\ in_ivl true j q) /\
     (forall q, in_ivl false (snd (intersect_i i j touch)) q <-> in_ivl false i q /\ in_ivl false j q)) /\
  (fst (intersect_i i j touch) = false -> snd (intersect_i i j touch) = i).
Proof. intros i j touch. exact (proj2 (intersect_i_spec i j touch)). Qed.
Theorem C15_intersect_valid : forall i j touch, ivl_ok i -> ivl_ok (snd (intersect_i i j touch)).
Proof. exact intersect_i_ok. Qed.
Theorem C15_generalized_intersect : forall i j, ivl_ok i -> ivl_ok j ->
  ivl_ok (generalized_intersect_i i j) /\
  (intersects_i i j true = true -> generalized_intersect_i i j = snd (intersect_i i j true)) /\
  (intersects_i i j true = false ->
     forall q, in_ivl true (generalized_intersect_i i j) q <->
       (forall p r, in_ivl true i p -> in_ivl true j r -> (p <= q <= r)%Q) \/
       (forall p r, in_ivl true i p -> in_ivl true j r -> (r <= q <= p)%Q)).
Proof. exact generalized_spec. Qed.
Theorem C15_encompass : forall i j, ivl_ok i -> ivl_ok j -> hull i j (snd (encompass_i i j)).
Proof. exact encompass_i_hull. Qed.
Theorem C15_encompass_changed : forall i j, ivl_ok i -> ivl_ok j ->
  (fst (encompass_i i j) = true <-> ~ forall q, in_ivl true j q -> in_ivl true i q) /\
  (fst (encompass_i i j) = false -> snd (encompass_i i j) = i).
Proof. exact encompass_i_ret. Qed.
Theorem C15_encompass_value : forall i v, encompass_v i v = encompass_i i (mk_ivl v v).
Proof. exact encompass_v_as. Qed.
Theorem C15_join_with : forall i j, ivl_ok i -> ivl_ok j ->
  (fst (join_with_i i j) = abuts_i i j) /\
  (fst (join_with_i i j) = true -> forall q, in_ivl true (snd (join_with_i i j)) q <-> in_ivl true i q \/ in_ivl true j q) /\
  (fst (join_with_i i j) = false -> snd (join_with_i i j) = i).
Proof. exact join_spec. Qed.
(* overlapping intervals are not joined *)
Theorem C15_join_overlapping_refuted : exists i j,
  ivl_ok i /\ ivl_ok j /\ intersects_i i j false = true /\ fst (join_with_i i j) = false.
Proof. exact join_overlap_refuted. Qed.
Theorem C15_construct : forall a b, ivl_ok (ivl_make a b) /\
  (forall q, in_ivl true (ivl_make a b) q <-> exists t, (0 <= t <= 1)%Q /\ (q == inject_Z a + t * (inject_Z b - inject_Z a))%Q).
Proof. exact make_ok. Qed.
Theorem C15_get_half : forall i high h, ivl_ok i -> ivl_get_half i high = Ok h ->
  ivl_ok h /\ exists c, ivl_center i = Ok c /\ lo i <= c <= hi i /\ h = if high then mk_ivl c (hi i) else mk_ivl (lo i) c.
Proof. exact get_half_spec. Qed.
(* setting one end may leave low > high *)
Theorem C15_set_invariant_refuted : exists i high v, ivl_ok i /\ ~ ivl_ok (ivl_set i high v).
Proof. exact set_invariant_refuted. Qed.
(* the order of interval_data is a strict total order *)
Theorem C15_less_irreflexive : forall i, ivl_less i i = false.
Proof. exact ivl_less_irrefl. Qed.
Theorem C15_less_transitive : forall i j k, ivl_less i j = true -> ivl_less j k = true -> ivl_less i k = true.
Proof. exact ivl_less_trans. Qed.
Theorem C15_less_total : forall i j, ivl_less i j = true \/ i = j \/ ivl_less j i = true.
Proof. exact ivl_less_total. Qed.

Example C15_hypotheses : ivl_ok (mk_ivl 0 5) /\ lo (mk_ivl 0 5) < hi (mk_ivl 0 5) /\
  abuts_i (mk_ivl 0 5) (mk_ivl 5 9) = true /\ join_with_i (mk_ivl 0 5) (mk_ivl 5 9) = (true, mk_ivl 0 9) /\
  intersect_i (mk_ivl 0 5) (mk_ivl 3 9) false = (true, mk_ivl 3 5) /\
  intersect_i (mk_ivl 0 5) (mk_ivl 5 9) false = (false, mk_ivl 0 5) /\
  generalized_intersect_i (mk_ivl 0 3) (mk_ivl 5 9) = mk_ivl 3 5 /\
  ivl_get_half (mk_ivl 0 5) true = Ok (mk_ivl 2 5).
Proof. unfold ivl_ok; cbn [lo hi]. repeat split; try lia; reflexivity. Qed.

(* ---------- C16: arithmetic ---------- *)
(* int overflow is the only way to fail, and happens exactly when an end of the
   result is not representable *)
Theorem C16_convolve_value_defined : forall i v,
  (exists k, ivl_convolve_v i v = Ok k) <-> is_int (lo i + v) /\ is_int (hi i + v).
Proof. intros i v. exact (ends_defined (lo i + v) (hi i + v)). Qed.
Theorem C16_convolve_value : forall i v k, ivl_convolve_v i v = Ok k ->
  forall touch q, in_ivl touch k q <-> in_ivl touch i (q - inject_Z v).
Proof. exact convolve_v_spec. Qed.
Theorem C16_deconvolve_value_defined : forall i v,
  (exists k, ivl_deconvolve_v i v = Ok k) <-> is_int (lo i - v) /\ is_int (hi i - v).
Proof. intros i v. exact (ends_defined (lo i - v) (hi i - v)). Qed.
Theorem C16_deconvolve_value : forall i v k, ivl_deconvolve_v i v = Ok k ->
  forall touch q, in_ivl touch k q <-> in_ivl touch i (q + inject_Z v).
Proof. exact deconvolve_v_spec. Qed.
Theorem C16_convolve_value_inverse : forall i v k, ivl_int i -> ivl_convolve_v i v = Ok k -> ivl_deconvolve_v k v = Ok i.
Proof. exact convolve_v_roundtrip. Qed.
Theorem C16_deconvolve_value_inverse : forall i v k, ivl_int i -> ivl_deconvolve_v i v = Ok k -> ivl_convolve_v k v = Ok i.
Proof. exact deconvolve_v_roundtrip. Qed.
(* convolve is the Minkowski sum, deconvolve the erosion *)
Theorem C16_convolve_defined : forall i j,
  (exists k, ivl_convolve i j = Ok k) <-> is_int (lo i + lo j) /\ is_int (hi i + hi j).
Proof. intros i j. exact (ends_defined (lo i + lo j) (hi i + hi j)). Qed.
Theorem C16_convolve : forall i j k, ivl_ok i -> ivl_ok j -> ivl_convolve i j = Ok k ->
  ivl_ok k /\ forall q, in_ivl true k q <-> exists a b, in_ivl true i a /\ in_ivl true j b /\ (q == a + b)%Q.
Proof. exact convolve_spec. Qed.
Theorem C16_deconvolve_defined : forall i j,
  (exists k, ivl_deconvolve i j = Ok k) <-> is_int (lo i - lo j) /\ is_int (hi i - hi j).
Proof. intros i j. exact (ends_defined (lo i - lo j) (hi i - hi j)). Qed.
Theorem C16_deconvolve : forall i j k, ivl_ok j -> ivl_deconvolve i j = Ok k ->
  forall q, in_ivl true k q <-> forall b, in_ivl true j b -> in_ivl true i (q + b).
Proof. exact deconvolve_spec. Qed.
Theorem C16_convolve_inverse : forall i j k, ivl_int i -> ivl_convolve i j = Ok k -> ivl_deconvolve k j = Ok i.
Proof. exact convolve_roundtrip. Qed.
Theorem C16_reflected_convolve_defined : forall i j,
  (exists k, ivl_reflected_convolve i j = Ok k) <-> is_int (lo i - hi j) /\ is_int (hi i - lo j).
Proof. intros i j. exact (ends_defined (lo i - hi j) (hi i - lo j)). Qed.
Theorem C16_reflected_convolve : forall i j k, ivl_ok i -> ivl_ok j -> ivl_reflected_convolve i j = Ok k ->
  ivl_ok k /\ forall q, in_ivl true k q <-> exists a b, in_ivl true i a /\ in_ivl true j b /\ (q == a - b)%Q.
Proof. exact reflected_convolve_spec. Qed.
Theorem C16_reflected_deconvolve : forall i j k, ivl_ok j -> ivl_reflected_deconvolve i j = Ok k ->
  forall q, in_ivl true k q <-> forall b, in_ivl true j b -> in_ivl true i (q - b).
Proof. exact reflected_deconvolve_spec. Qed.
Theorem C16_reflected_inverse : forall i j k, ivl_int i -> ivl_reflected_convolve i j = Ok k -> ivl_reflected_deconvolve k j = Ok i.
Proof. exact reflected_roundtrip. Qed.
Theorem C16_move_defined : forall i d, ivl_int i -> - 2 ^ 62 <= d <= 2 ^ 62 -> exists k, ivl_move i d = Ok k.
Proof. exact move_defined. Qed.
Theorem C16_move : forall i d k, ivl_int i -> ivl_move i d = Ok k ->
  is_int (lo i + d) -> is_int (hi i + d) -> k = mk_ivl (lo i + d) (hi i + d).
Proof. exact move_spec. Qed.
Theorem C16_move_inverse : forall i d k, ivl_int i -> - 2 ^ 62 <= d <= 2 ^ 62 -> ivl_move i d = Ok k ->
  is_int (lo i + d) -> is_int (hi i + d) -> ivl_move k (- d) = Ok i.
Proof. exact move_roundtrip. Qed.
(* a move out of the coordinate range wraps silently, even to low > high *)
Theorem C16_move_out_of_range_refuted : exists i d k, ivl_ok i /\ ivl_int i /\ ivl_move i d = Ok k /\ ~ ivl_ok k.
Proof. exact move_wraps. Qed.
Theorem C16_flip_defined : forall i a,
  (exists k, ivl_flip i a = Ok k) <-> is_int (2 * a) /\ is_int (2 * a - hi i) /\ is_int (2 * a - lo i).
Proof. exact flip_defined. Qed.
Theorem C16_flip : forall i a k, ivl_flip i a = Ok k -> k = mk_ivl (2 * a - hi i) (2 * a - lo i) /\
  (ivl_ok i <-> ivl_ok k) /\ forall touch q, in_ivl touch k q <-> in_ivl touch i (2 * inject_Z a - q).
Proof. exact flip_spec. Qed.
Theorem C16_flip_twice : forall i a k, ivl_int i -> ivl_flip i a = Ok k -> ivl_flip k a = Ok i.
Proof. exact flip_involutive. Qed.
Theorem C16_bloat_defined : forall i b,
  (exists k, ivl_bloat i b = Ok k) <-> is_int (lo i - b) /\ is_int (hi i + b).
Proof. intros i b. exact (ends_defined (lo i - b) (hi i + b)). Qed.
Theorem C16_bloat : forall i b k, ivl_ok i -> 0 <= b -> ivl_bloat i b = Ok k ->
  ivl_ok k /\ forall q, in_ivl true k q <-> exists p, in_ivl true i p /\ (Qabs (q - p) <= inject_Z b)%Q.
Proof. exact bloat_spec. Qed.
Theorem C16_shrink_defined : forall i b,
  (exists k, ivl_shrink i b = Ok k) <-> is_int (- b) /\ is_int (lo i + b) /\ is_int (hi i - b).
Proof. exact shrink_defined. Qed.
Theorem C16_shrink : forall i b k, 0 <= b -> ivl_shrink i b = Ok k ->
  (forall q, in_ivl true k q <-> forall p, (Qabs (p - q) <= inject_Z b)%Q -> in_ivl true i p) /\
  (ivl_ok k <-> lo i + b <= hi i - b).
Proof. exact shrink_spec. Qed.
Theorem C16_shrink_invariant_refuted : exists i b k, ivl_ok i /\ 0 <= b /\ ivl_shrink i b = Ok k /\ ~ ivl_ok k.
Proof. exact shrink_invariant_refuted. Qed.
Theorem C16_bloat_shrink_inverse : forall i b k, ivl_int i -> is_int (- b) -> ivl_bloat i b = Ok k -> ivl_shrink k b = Ok i.
Proof. exact bloat_shrink_roundtrip. Qed.
Theorem C16_bloat_direction : forall i high b k, ivl_bloat_dir i high b = Ok k ->
  k = if high then mk_ivl (lo i) (hi i + b) else mk_ivl (lo i - b) (hi i).
Proof. exact bloat_dir_spec. Qed.
Theorem C16_shrink_direction : forall i high b k, ivl_shrink_dir i high b = Ok k ->
  k = if high then mk_ivl (lo i) (hi i - b) else mk_ivl (lo i + b) (hi i).
Proof. exact shrink_dir_spec. Qed.
Theorem C16_scale_up_defined : forall i f, (exists k, ivl_scale_up i f = Ok k) <-> is_int (hi i * f) /\ is_int (lo i * f).
Proof. exact scale_up_defined. Qed.
Theorem C16_scale_up : forall i f k, ivl_scale_up i f = Ok k -> 0 < f ->
  (ivl_ok i <-> ivl_ok k) /\ forall touch q, in_ivl touch k q <-> in_ivl touch i (q / inject_Z f).
Proof. exact scale_up_spec. Qed.
Theorem C16_scale_down : forall i f, ivl_ok i -> ivl_int i -> 0 < f -> is_int f ->
  exists k, ivl_scale_down i f = Ok k /\ ivl_ok k /\ lo k = Z.quot (lo i) f /\ hi k = Z.quot (hi i) f.
Proof. exact scale_down_spec. Qed.
Theorem C16_scale_inverse : forall i f k, ivl_int i -> 0 < f -> ivl_scale_up i f = Ok k -> ivl_scale_down k f = Ok i.
Proof. exact scale_roundtrip. Qed.

Example C16_hypotheses :
  ivl_convolve (mk_ivl 0 5) (mk_ivl (-1) 3) = Ok (mk_ivl (-1) 8) /\
  ivl_deconvolve (mk_ivl 0 5) (mk_ivl (-1) 3) = Ok (mk_ivl 1 2) /\
  ivl_reflected_convolve (mk_ivl 0 5) (mk_ivl (-1) 3) = Ok (mk_ivl (-3) 6) /\
  ivl_flip (mk_ivl 0 5) 10 = Ok (mk_ivl 15 20) /\ ivl_move (mk_ivl 0 5) (-7) = Ok (mk_ivl (-7) (-2)) /\
  ivl_bloat (mk_ivl 0 5) 2 = Ok (mk_ivl (-2) 7) /\ ivl_shrink (mk_ivl 0 5) 2 = Ok (mk_ivl 2 3) /\
  ivl_scale_up (mk_ivl 1 5) 3 = Ok (mk_ivl 3 15) /\ ivl_bloat (mk_ivl 0 INT_MAX) 1 = Overflow.
Proof. vm_compute. repeat split. Qed.

(* ---------- C17: overflow ---------- *)
Theorem C17_interval_delta : forall i, ivl_int i -> ivl_delta i = Ok (hi i - lo i).
Proof. exact delta_spec. Qed.
Theorem C17_interval_center_defined : forall i, (exists c, ivl_center i = Ok c) <-> is_int (lo i + hi i).
Proof. exact center_defined. Qed.
Theorem C17_interval_center : forall i c, ivl_ok i -> ivl_center i = Ok c ->
  in_ivl true i (inject_Z c) /\ (Qabs (inject_Z c - (inject_Z (lo i) + inject_Z (hi i)) / 2) <= 1 # 2)%Q.
Proof. exact center_least. Qed.
(* the sum of the ends overflows for [1, INT_MAX] *)
Theorem C17_interval_center_refuted : exists i, ivl_ok i /\ ivl_int i /\ ivl_center i = Overflow.
Proof. exact center_refuted. Qed.

(* ---------- C18: distances ---------- *)
Theorem C18_interval_distance : forall i j, ivl_ok i -> ivl_ok j -> ivl_int i -> ivl_int j ->
  exists d, ivl_dist i j = Ok d /\ least_dist (in_ivl true i) (in_ivl true j) (inject_Z d).
Proof. exact dist_spec. Qed.
Theorem C18_interval_distance_value : forall i v, ivl_ok i -> ivl_int i -> is_int v ->
  exists d, ivl_dist_v i v = Ok d /\ least_dist (in_ivl true i) (fun q => (q == inject_Z v)%Q) (inject_Z d).
Proof. exact dist_v_spec. Qed.
(* with low > high (which set() and shrink() can produce) the array is read out of bounds *)
Theorem C18_invalid_interval_refuted : exists i v, ivl_int i /\ is_int v /\ ivl_dist_v i v = Undefined.
Proof. exists (mk_ivl 5 1), 3. split; [vm_compute; repeat split; discriminate|]. split; [vm_compute; split; discriminate|]. exact dist_v_invalid. Qed.
Example C18_interval_hypotheses : ivl_ok (mk_ivl INT_MIN 0) /\ ivl_int (mk_ivl INT_MIN 0) /\
  ivl_dist (mk_ivl INT_MIN (INT_MIN + 1)) (mk_ivl 7 INT_MAX) = Ok (7 - (INT_MIN + 1)) /\ ivl_dist_v (mk_ivl INT_MIN 0) INT_MAX = Ok INT_MAX.
Proof. vm_compute. repeat split; discriminate. Qed.

Print Assumptions C15_contains.
Print Assumptions C15_intersect_points.
Print Assumptions C15_generalized_intersect.
Print Assumptions C15_encompass.
Print Assumptions C15_join_with.
Print Assumptions C15_get_half.
Print Assumptions C16_convolve.
Print Assumptions C16_flip.
Print Assumptions C16_bloat.
Print Assumptions C16_shrink.
Print Assumptions C16_scale_up.
Print Assumptions C17_interval_center.
Print Assumptions C18_interval_distance.

Print Assumptions C15_contains_value.
Print Assumptions C15_intersects_touch.
Print Assumptions C15_intersects_open.
Print Assumptions C15_intersects_open_degenerate.
Print Assumptions C15_boundaries_intersect.
Print Assumptions C15_abuts.
Print Assumptions C15_abuts_high.
Print Assumptions C15_abuts_low.
Print Assumptions C15_intersect_touch.
Print Assumptions C15_intersect_open.
Print Assumptions C15_intersect_valid.
Print Assumptions C15_encompass_changed.
Print Assumptions C15_encompass_value.
Print Assumptions C15_join_overlapping_refuted.
Print Assumptions C15_construct.
Print Assumptions C15_set_invariant_refuted.
Print Assumptions C15_less_irreflexive.
Print Assumptions C15_less_transitive.
Print Assumptions C15_less_total.
Print Assumptions C16_convolve_value_defined.
Print Assumptions C16_convolve_value.
Print Assumptions C16_deconvolve_value_defined.
Print Assumptions C16_deconvolve_value.
Print Assumptions C16_convolve_value_inverse.
Print Assumptions C16_deconvolve_value_inverse.
Print Assumptions C16_convolve_defined.
Print Assumptions C16_deconvolve_defined.
Print Assumptions C16_deconvolve.
Print Assumptions C16_convolve_inverse.
Print Assumptions C16_reflected_convolve_defined.
Print Assumptions C16_reflected_convolve.
Print Assumptions C16_reflected_deconvolve.
Print Assumptions C16_reflected_inverse.
Print Assumptions C16_move_defined.
Print Assumptions C16_move.
Print Assumptions C16_move_inverse.
Print Assumptions C16_move_out_of_range_refuted.
Print Assumptions C16_flip_defined.
Print Assumptions C16_flip_twice.
Print Assumptions C16_bloat_defined.
Print Assumptions C16_shrink_defined.
Print Assumptions C16_shrink_invariant_refuted.
Print Assumptions C16_bloat_shrink_inverse.
Print Assumptions C16_bloat_direction.
Print Assumptions C16_shrink_direction.
Print Assumptions C16_scale_up_defined.
Print Assumptions C16_scale_down.
Print Assumptions C16_scale_inverse.
Print Assumptions C17_interval_delta.
Print Assumptions C17_interval_center_defined.
Print Assumptions C17_interval_center_refuted.
Print Assumptions C18_interval_distance_value.
Print Assumptions C18_invalid_interval_refuted.
