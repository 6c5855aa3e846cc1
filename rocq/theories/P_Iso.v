(* C21, C22, C23: directions, axis transformations, transformations. *)
From Verif Require Import Base IsoSpec IsoModel IsoProofs.

(* ---------- C21 ---------- *)
(* backward/left/right map the unit vector of a direction to its negative and
   its rotations by 90 degrees; sign and orientation are those of the vector *)
Theorem C21_direction_2d : forall d : dir,
  (exists e, d2_backward (dir_code d) = dir_code e /\ unit_vec e = vneg (unit_vec d)) /\
  (exists e, d2_left (dir_code d) = dir_code e /\ unit_vec e = rot_ccw (unit_vec d)) /\
  (exists e, d2_right (dir_code d) = dir_code e /\ unit_vec e = rot_cw (unit_vec d)) /\
  (d2_get_sign (dir_code d) = fst (unit_vec d) + snd (unit_vec d) /\
   d2_is_positive (dir_code d) = positive d /\ d2_is_negative (dir_code d) = negb (positive d)) /\
  o2_of_d2 (dir_code d) = (if horizontal d then HORIZONTAL else VERTICAL) /\
  o2_get_direction (o2_of_d2 (dir_code d)) (d1_of_d2 (dir_code d)) = dir_code d.
Proof.
  exact (fun d => conj (backward_spec d) (conj (left_spec d) (conj (right_spec d)
          (conj (sign_spec d) (conj (orient_spec d) (orient_dir_roundtrip d)))))).
Qed.
Print Assumptions C21_direction_2d.
Example C21_left_of_east : d2_left EAST = NORTH /\ d2_right EAST = SOUTH.
Proof. split; reflexivity. Qed.

Theorem C21_orientation_direction : forall o s : Z, (o = 0 \/ o = 1) -> (s = 0 \/ s = 1) ->
  exists d, o2_get_direction o s = dir_code d /\
    horizontal d = (o =? HORIZONTAL) /\ positive d = (s =? HIGH).
Proof. exact get_direction_spec. Qed.
Print Assumptions C21_orientation_direction.

Theorem C21_direction_1d : forall s : Z, (s = LOW \/ s = HIGH) ->
  d1_backward s = 1 - s /\ d1_get_sign s = (if s =? HIGH then 1 else -1).
Proof. exact d1_spec. Qed.
Print Assumptions C21_direction_1d.

Theorem C21_perpendicular : forall o : Z, (o = 0 \/ o = 1) -> o2_get_perpendicular o = 1 - o.
Proof. exact perp_spec. Qed.
Print Assumptions C21_perpendicular.

Theorem C21_direction_3d : forall c : Z, 0 <= c < 6 ->
  0 <= d3_backward c < 6 /\ d3_backward (d3_backward c) = c /\ d3_backward c <> c /\
  o3_of_d3 (d3_backward c) = o3_of_d3 c /\ d3_get_sign (d3_backward c) = - d3_get_sign c /\
  o3_get_direction (o3_of_d3 c) (Z.land c 1) = c.
Proof. exact d3_spec. Qed.
Print Assumptions C21_direction_3d.

(* ---------- C22 ---------- *)
(* the transformation is the linear map that sends the two axes to the
   documented directions *)
Theorem C22_transform_maps_axes : forall a x y : Z, 0 <= a < 8 ->
  atr_transform a (x, y) = combine_dirs (fst (atr_dirs a)) (snd (atr_dirs a)) x y.
Proof. exact atr_transform_spec. Qed.
Print Assumptions C22_transform_maps_axes.

Theorem C22_get_directions : forall a : Z, 0 <= a < 8 ->
  get_directions a = (dir_code (fst (atr_dirs a)), dir_code (snd (atr_dirs a))).
Proof. exact get_directions_spec. Qed.
Print Assumptions C22_get_directions.

Theorem C22_set_get_directions : forall a : Z, 0 <= a < 8 ->
  set_directions (fst (get_directions a)) (snd (get_directions a)) = a.
Proof. exact set_get_directions. Qed.
Print Assumptions C22_set_get_directions.

Theorem C22_get_set_directions : forall h v : dir, horizontal h <> horizontal v ->
  0 <= set_directions (dir_code h) (dir_code v) < 8 /\
  get_directions (set_directions (dir_code h) (dir_code v)) = (dir_code h, dir_code v).
Proof. exact get_set_directions. Qed.
Print Assumptions C22_get_set_directions.
Example C22_legal_directions : horizontal North <> horizontal West.
Proof. discriminate. Qed.

Theorem C22_inverse_undoes : forall (a : Z) (p : Z * Z), 0 <= a < 8 ->
  atr_transform (atr_invert a) (atr_transform a p) = p /\
  atr_transform a (atr_transform (atr_invert a) p) = p.
Proof. exact atr_invert_spec. Qed.
Print Assumptions C22_inverse_undoes.

Theorem C22_plus_defined : forall a b : Z, 0 <= a < 8 -> 0 <= b < 8 ->
  exists c, atr_plus a b = Some c /\ 0 <= c < 8.
Proof. exact atr_plus_range. Qed.
Print Assumptions C22_plus_defined.

Theorem C22_plus_composes : forall a b c x y : Z, 0 <= a < 8 -> 0 <= b < 8 ->
  atr_plus a b = Some c ->
  atr_transform c (x, y) = atr_transform b (atr_transform a (x, y)).
Proof. exact atr_plus_spec. Qed.
Print Assumptions C22_plus_composes.
Example C22_rotate_then_flip : atr_plus ROTATE_LEFT FLIP_X = Some 7 /\
  atr_transform 7 (3, 5) = (-5, -3).
Proof. split; reflexivity. Qed.

(* different codes are different maps, so == on axis transformations is
   equality of maps *)
Theorem C22_equal_codes_iff_equal_maps : forall a b : Z, 0 <= a < 8 -> 0 <= b < 8 ->
  (forall p, atr_transform a p = atr_transform b p) -> a = b.
Proof. exact atr_eq_of_maps. Qed.
Print Assumptions C22_equal_codes_iff_equal_maps.

Theorem C22_axis_array_roundtrip : forall a : Z, 0 <= a < 8 ->
  write_back_axis_array (populate_axis_array a) = a.
Proof. exact axis_array_roundtrip. Qed.
Print Assumptions C22_axis_array_roundtrip.

(* combine_axis_arrays is documented to concatenate two transformations; it
   does not *)
Theorem C22_combine_axis_arrays_refuted :
  exists a b arr c, 0 <= a < 8 /\ 0 <= b < 8 /\
    combine_axis_arrays (populate_axis_array a) (populate_axis_array b) = Some arr /\
    atr_plus a b = Some c /\ write_back_axis_array arr <> c.
Proof. exact combine_axis_arrays_wrong. Qed.
Print Assumptions C22_combine_axis_arrays_refuted.

(* anisotropic scale factors *)
Theorem C22_scale_factor_transform : forall (s : Z * Z) (a x y : Z), 0 <= a < 8 ->
  atr_transform a (x * fst s, y * snd s) =
  (fst (atr_transform a (x, y)) * fst (asf_transform s a),
   snd (atr_transform a (x, y)) * snd (asf_transform s a)).
Proof. exact asf_transform_spec. Qed.
Print Assumptions C22_scale_factor_transform.

Theorem C22_anisotropic_scale_refuted :
  exists s p, asf_scale s p <> (fst p * fst s, snd p * snd s).
Proof. exact asf_scale_wrong. Qed.
Print Assumptions C22_anisotropic_scale_refuted.

(* ---------- C23 ---------- *)
Theorem C23_inverse_undoes : forall (t : tr) (p : Z * Z), 0 <= tr_atr t < 8 ->
  tr_transform (tr_invert t) (tr_transform t p) = p /\
  tr_transform t (tr_transform (tr_invert t) p) = p.
Proof. exact tr_invert_spec. Qed.
Print Assumptions C23_inverse_undoes.
Example C23_some_transformation :
  0 <= tr_atr (mk_tr ROTATE_RIGHT (3, -4)) < 8 /\
  tr_transform (mk_tr ROTATE_RIGHT (3, -4)) (10, 20) = (-24, 7).
Proof. repeat split; vm_compute; congruence. Qed.

(* operator+= reads two uninitialised variables: undefined behaviour *)
Theorem C23_plus_undefined_refuted : forall t u : tr, tr_plus t u = None.
Proof. exact (fun t u => eq_refl). Qed.
Print Assumptions C23_plus_undefined_refuted.

(* and whatever these variables hold, there are operands for which the result
   is not the composition; it never depends on the second translation *)
Theorem C23_plus_composes_refuted : forall g : Z * Z,
  exists t u r p, 0 <= tr_atr t < 8 /\ 0 <= tr_atr u < 8 /\ tr_plus_garbage g t u = Some r /\
    tr_transform r p <> tr_transform u (tr_transform t p).
Proof. exact tr_plus_wrong. Qed.
Print Assumptions C23_plus_composes_refuted.

Theorem C23_plus_ignores_second_translation : forall (g : Z * Z) (t u u' : tr),
  tr_atr u = tr_atr u' -> tr_plus_garbage g t u = tr_plus_garbage g t u'.
Proof. exact tr_plus_ignores_translation. Qed.
Print Assumptions C23_plus_ignores_second_translation.
