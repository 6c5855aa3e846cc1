(* C17-C20, C27: points and rectangles. *)
From Coq Require Import Qround.
From Verif Require Import Base Scan90Spec Set90Spec Set90Model GeoSpec IvlModel IvlProofs RectModel RectProofs RectArith RectDist.
From Verif Require Import IsoModel.

(* ---------- C19: predicates and intersection ---------- *)
Theorem C19_contains : forall r s touch, rect_ok s ->
  (r_contains r s touch = true <-> forall q, in_rectq true s q -> in_rectq touch r q).
Proof. exact r_contains_spec. Qed.
Theorem C19_contains_point : forall r p touch, r_contains_pt r p touch = true <-> in_rectq touch r (qpt p).
Proof. exact r_contains_pt_spec. Qed.
Theorem C19_intersects_touch : forall r s, rect_ok r -> rect_ok s ->
  (r_intersects r s true = true <-> exists q, in_rectq true r q /\ in_rectq true s q).
Proof. exact r_intersects_touch. Qed.
Theorem C19_intersects_open : forall r s, pos_area r -> pos_area s ->
  (r_intersects r s false = true <-> exists q, in_rectq false r q /\ in_rectq false s q).
Proof. exact r_intersects_open. Qed.
Theorem C19_boundaries_touch : forall r s, rect_ok r -> rect_ok s ->
  (r_boundaries_intersect r s true = true <-> exists q, on_boundary r q /\ on_boundary s q).
Proof. exact r_boundaries_touch. Qed.
Theorem C19_boundaries_open : forall r s, pos_area r -> pos_area s ->
  (r_boundaries_intersect r s false = true <->
   (exists q, on_boundary r q /\ in_rectq false s q) /\ (exists q, on_boundary s q /\ in_rectq false r q)).
Proof. exact r_boundaries_open. Qed.
Theorem C19_abuts : forall r s, pos_area r -> pos_area s ->
  (r_abuts r s = true <->
   (exists q, in_rectq true r q /\ in_rectq true s q) /\ ~ (exists q, in_rectq false r q /\ in_rectq false s q)).
Proof. exact r_abuts_spec. Qed.
Theorem C19_abuts_direction : forall r s o high, pos_area r -> pos_area s ->
  (r_abuts_dir r s o high = true <->
   (exists q, in_rectq true r q /\ in_rectq true s q) /\
   if high then hi (r_get r o) = lo (r_get s o) else hi (r_get s o) = lo (r_get r o)).
Proof. exact r_abuts_dir_spec. Qed.
Theorem C19_abuts_orientation : forall r s o, r_abuts_o r s o = r_abuts_dir r s o true || r_abuts_dir r s o false.
Proof. exact r_abuts_o_spec. Qed.
Theorem C19_intersect_touch : forall r s, rect_ok r -> rect_ok s ->
  (fst (r_intersect r s true) = true <-> exists q, in_rectq true r q /\ in_rectq true s q) /\
  (fst (r_intersect r s true) = true ->
     forall touch q, in_rectq touch (snd (r_intersect r s true)) q <-> in_rectq touch r q /\ in_rectq touch s q) /\
  (fst (r_intersect r s true) = false -> snd (r_intersect r s true) = r).
Proof. exact r_intersect_touch_spec. Qed.
(* consider_touch = false: right when the interiors meet or the closed
   rectangles are disjoint ... *)
Theorem C19_intersect_open_meeting : forall r s, pos_area r -> pos_area s ->
  (exists q, in_rectq false r q /\ in_rectq false s q) ->
  fst (r_intersect r s false) = true /\
  forall touch q, in_rectq touch (snd (r_intersect r s false)) q <-> in_rectq touch r q /\ in_rectq touch s q.
Proof.
  intros r s A B H. apply r_intersects_open in H; [|assumption|assumption]. rewrite r_intersect_inner by assumption.
  split; [reflexivity|]. intros. apply clip_points.
Qed.
Theorem C19_intersect_open_disjoint : forall r s, rect_ok r -> rect_ok s ->
  ~ (exists q, in_rectq true r q /\ in_rectq true s q) -> r_intersect r s false = (false, r).
Proof.
  intros r s A B H. apply r_intersect_disjoint. destruct (r_intersects r s true) eqn:E; [|reflexivity].
  exfalso. apply H. apply r_intersects_touch; assumption.
Qed.
(* ... but for rectangles that only touch it returns true and clips one axis *)
Theorem C19_intersect_open_refuted : exists r s,
  pos_area r /\ pos_area s /\ r_intersects r s false = false /\
  fst (r_intersect r s false) = true /\ snd (r_intersect r s false) <> r /\
  ~ exists q, in_rectq false r q /\ in_rectq false s q.
Proof. exact r_intersect_open_refuted. Qed.
Theorem C19_encompass : forall r s, rect_ok r -> rect_ok s ->
  rect_hull r s (snd (r_encompass r s)) /\
  (fst (r_encompass r s) = true <-> ~ forall q, in_rectq true s q -> in_rectq true r q) /\
  (fst (r_encompass r s) = false -> snd (r_encompass r s) = r).
Proof. exact r_encompass_spec. Qed.
Theorem C19_encompass_point : forall r p, rect_ok r -> r_encompass_pt r p = r_encompass r (mk_rect (px p) (px p) (py p) (py p)).
Proof. exact r_encompass_pt_as. Qed.
Theorem C19_join_with : forall r s, rect_ok r -> rect_ok s ->
  (fst (r_join_with r s) = true -> forall q, in_rectq true (snd (r_join_with r s)) q <-> in_rectq true r q \/ in_rectq true s q) /\
  (fst (r_join_with r s) = false -> snd (r_join_with r s) = r).
Proof. exact r_join_spec. Qed.
Theorem C19_join_with_when : forall r s, fst (r_join_with r s) = true <->
  (horizontal r = horizontal s /\ abuts_i (vertical r) (vertical s) = true) \/
  (vertical r = vertical s /\ abuts_i (horizontal r) (horizontal s) = true).
Proof. exact r_join_when. Qed.
Theorem C19_set_points : forall p q, rect_ok (r_set_points p q) /\ r_set_points p q = r_set_points q p /\
  in_rectq true (r_set_points p q) (qpt p) /\ in_rectq true (r_set_points p q) (qpt q) /\
  forall h, in_rectq true h (qpt p) -> in_rectq true h (qpt q) -> forall z, in_rectq true (r_set_points p q) z -> in_rectq true h z.
Proof. exact r_set_points_spec. Qed.
Theorem C19_less_irreflexive : forall o r, r_less o r r = false.
Proof. exact r_less_irrefl. Qed.
Theorem C19_less_transitive : forall o r s t, r_less o r s = true -> r_less o s t = true -> r_less o r t = true.
Proof. exact r_less_trans. Qed.
Theorem C19_less_total : forall o r s, r_less o r s = true \/ r = s \/ r_less o s r = true.
Proof. exact r_less_total. Qed.

Example C19_hypotheses : let r := mk_rect 0 10 0 10 in let s := mk_rect 5 15 2 4 in
  rect_ok r /\ pos_area r /\ pos_area s /\ r_boundaries_intersect r s true = true /\ r_boundaries_intersect r s false = true /\
  r_boundaries_intersect r (mk_rect 2 4 2 4) true = false /\
  r_intersect r s true = (true, mk_rect 5 10 2 4) /\ r_abuts r (mk_rect 10 12 10 11) = true /\
  r_encompass r s = (true, mk_rect 0 15 0 10) /\ r_join_with r (mk_rect 10 12 0 10) = (true, mk_rect 0 12 0 10).
Proof. cbv zeta. unfold rect_ok, pos_area; cbn [xl xh yl yh]. repeat split; try lia; reflexivity. Qed.

(* ---------- C20: maps ---------- *)
Theorem C20_convolve_point : forall r p r', r_convolve_pt r p = Ok r' ->
  forall touch q, in_rectq touch r' q <-> in_rectq touch r (fst q - inject_Z (px p), snd q - inject_Z (py p))%Q.
Proof. exact r_convolve_pt_spec. Qed.
Theorem C20_deconvolve_point : forall r p r', r_deconvolve_pt r p = Ok r' ->
  forall touch q, in_rectq touch r' q <-> in_rectq touch r (fst q + inject_Z (px p), snd q + inject_Z (py p))%Q.
Proof. exact r_deconvolve_pt_spec. Qed.
Theorem C20_convolve_point_inverse : forall r p r', rect_int r -> r_convolve_pt r p = Ok r' -> r_deconvolve_pt r' p = Ok r.
Proof. exact r_convolve_pt_inverse. Qed.
Theorem C20_convolve : forall r s r', rect_ok r -> rect_ok s -> r_convolve r s = Ok r' ->
  rect_ok r' /\ forall q, in_rectq true r' q <->
    exists a b, in_rectq true r a /\ in_rectq true s b /\ same_pt q (fst a + fst b, snd a + snd b)%Q.
Proof. exact r_convolve_spec. Qed.
Theorem C20_deconvolve : forall r s r', rect_ok s -> r_deconvolve r s = Ok r' ->
  forall q, in_rectq true r' q <-> forall b, in_rectq true s b -> in_rectq true r (fst q + fst b, snd q + snd b)%Q.
Proof. exact r_deconvolve_spec. Qed.
Theorem C20_convolve_inverse : forall r s r', rect_int r -> r_convolve r s = Ok r' -> r_deconvolve r' s = Ok r.
Proof. exact r_convolve_inverse. Qed.
Theorem C20_reflected_convolve : forall r s r', rect_ok r -> rect_ok s -> r_reflected_convolve r s = Ok r' ->
  rect_ok r' /\ forall q, in_rectq true r' q <->
    exists a b, in_rectq true r a /\ in_rectq true s b /\ same_pt q (fst a - fst b, snd a - snd b)%Q.
Proof. exact r_reflected_convolve_spec. Qed.
Theorem C20_reflected_inverse : forall r s r', rect_int r -> r_reflected_convolve r s = Ok r' -> r_reflected_deconvolve r' s = Ok r.
Proof. exact r_reflected_inverse. Qed.
Theorem C20_move : forall r o d r', rect_int r -> is_int (lo (r_get r o) + d) -> is_int (hi (r_get r o) + d) -> r_move r o d = Ok r' ->
  forall touch q, in_rectq touch r' q <->
    in_rectq touch r (match o with Horizontal => (fst q - inject_Z d, snd q) | Vertical => (fst q, snd q - inject_Z d) end)%Q.
Proof. exact r_move_spec. Qed.
Theorem C20_move_defined : forall r o d, rect_int r -> - 2 ^ 62 <= d <= 2 ^ 62 -> exists r', r_move r o d = Ok r'.
Proof. exact r_move_defined. Qed.
Theorem C20_bloat : forall r b r', rect_ok r -> 0 <= b -> r_bloat r b = Ok r' ->
  rect_ok r' /\ forall q, in_rectq true r' q <->
    exists p, in_rectq true r p /\ (Qabs (fst q - fst p) <= inject_Z b)%Q /\ (Qabs (snd q - snd p) <= inject_Z b)%Q.
Proof. exact r_bloat_spec. Qed.
Theorem C20_shrink : forall r b r', 0 <= b -> r_shrink r b = Ok r' ->
  (rect_ok r' <-> lo (horizontal r) + b <= hi (horizontal r) - b /\ lo (vertical r) + b <= hi (vertical r) - b) /\
  (rect_ok r' -> forall q, in_rectq true r' q <->
    forall p, (Qabs (fst p - fst q) <= inject_Z b)%Q -> (Qabs (snd p - snd q) <= inject_Z b)%Q -> in_rectq true r p).
Proof. exact r_shrink_spec. Qed.
Theorem C20_bloat_shrink_inverse : forall r b r', rect_int r -> is_int (- b) -> r_bloat r b = Ok r' -> r_shrink r' b = Ok r.
Proof. exact r_bloat_shrink_inverse. Qed.
Theorem C20_bloat_direction : forall r o high b r', r_bloat_dir r o high b = Ok r' ->
  r' = match o, high with
       | Horizontal, false => mk_rect (xl r - b) (xh r) (yl r) (yh r)
       | Horizontal, true => mk_rect (xl r) (xh r + b) (yl r) (yh r)
       | Vertical, false => mk_rect (xl r) (xh r) (yl r - b) (yh r)
       | Vertical, true => mk_rect (xl r) (xh r) (yl r) (yh r + b)
       end.
Proof. exact r_bloat_dir_spec. Qed.
Theorem C20_shrink_direction : forall r o high b r', r_shrink_dir r o high b = Ok r' ->
  r' = match o, high with
       | Horizontal, false => mk_rect (xl r + b) (xh r) (yl r) (yh r)
       | Horizontal, true => mk_rect (xl r) (xh r - b) (yl r) (yh r)
       | Vertical, false => mk_rect (xl r) (xh r) (yl r + b) (yh r)
       | Vertical, true => mk_rect (xl r) (xh r) (yl r) (yh r - b)
       end.
Proof. exact r_shrink_dir_spec. Qed.
Theorem C20_scale_up : forall r k r', 0 < k -> is_int k -> r_scale_up r k = Ok r' ->
  (rect_ok r <-> rect_ok r') /\
  forall touch q, in_rectq touch r' q <-> in_rectq touch r (fst q / inject_Z k, snd q / inject_Z k)%Q.
Proof. exact r_scale_up_spec. Qed.
Theorem C20_scale_inverse : forall r k r', rect_int r -> 0 < k -> is_int k -> r_scale_up r k = Ok r' -> r_scale_down r' k = Ok r.
Proof. exact r_scale_inverse. Qed.
(* transform with an object whose point map is an axis-parallel affine map *)
Theorem C20_transform : forall f m r r', rect_ok r -> amap_ok m ->
  (forall p p', f p = Ok p' -> same_pt (inject_Z (fst p'), inject_Z (snd p')) (amap_at m (inject_Z (fst p), inject_Z (snd p)))) ->
  r_transform f r = Ok r' ->
  rect_ok r' /\ forall touch q, in_rectq touch r' (amap_at m q) <-> in_rectq touch r q.
Proof. exact r_transform_spec. Qed.
(* every transformation object is one *)
Theorem C20_transformation_object : forall t, exists m, amap_ok m /\
  forall p, same_pt (inject_Z (fst (tr_transform t p)), inject_Z (snd (tr_transform t p))) (amap_at m (inject_Z (fst p), inject_Z (snd p))).
Proof.
  intros t. exists (tr_amap t). split; [apply tr_amap_ok|]. intros p.
  apply (tr_agrees t (fun p => Ok (tr_transform t p))); [intros x x' H; congruence|reflexivity].
Qed.
(* scale() reads the lower left corner twice: the result has no area *)
Theorem C20_scale_refuted : exists (f : Z * Z -> outcome (Z * Z)) m r r',
  rect_ok r /\ pos_area r /\ amap_ok m /\
  (forall p p', f p = Ok p' -> same_pt (inject_Z (fst p'), inject_Z (snd p')) (amap_at m (inject_Z (fst p), inject_Z (snd p)))) /\
  r_scale f r = Ok r' /\ ~ forall q, in_rectq true r' (amap_at m q) <-> in_rectq true r q.
Proof. exact r_scale_refuted. Qed.

Example C20_hypotheses : let r := mk_rect 0 10 2 5 in
  r_convolve r (mk_rect (-1) 1 0 2) = Ok (mk_rect (-1) 11 2 7) /\ r_move r Vertical 3 = Ok (mk_rect 0 10 5 8) /\
  r_bloat r 1 = Ok (mk_rect (-1) 11 1 6) /\ r_shrink r 1 = Ok (mk_rect 1 9 3 4) /\ r_scale_up r 3 = Ok (mk_rect 0 30 6 15) /\
  r_transform (fun p => Ok (tr_transform (mk_tr 5 (1, 1)) p)) r = Ok (mk_rect 1 4 (-9) 1).
Proof. vm_compute. repeat split. Qed.

(* ---------- C17: overflow ---------- *)
Theorem C17_point_distance_defined : forall p q o, (exists d, pt_dist_o p q o = Ok d) <-> is_int (pt_get p o - pt_get q o).
Proof. exact pt_dist_o_defined. Qed.
Theorem C17_point_distance : forall p q o d, pt_dist_o p q o = Ok d -> d = Z.abs (pt_get p o - pt_get q o).
Proof. intros p q o d H. exact (proj1 (pt_dist_o_inv p q o d H)). Qed.
Theorem C17_manhattan : forall p q d, pt_manhattan p q = Ok d <->
  d = Z.abs (px p - px q) + Z.abs (py p - py q) /\ is_int (px p - px q) /\ is_int (py p - py q).
Proof. exact pt_manhattan_inv. Qed.
Theorem C17_manhattan_overflow_refuted : exists p q, pt_int p /\ pt_int q /\ pt_manhattan p q = Overflow.
Proof. exact manhattan_overflow_refuted. Qed.
Theorem C17_distance_squared : forall p q d, pt_dist_sq p q = Ok d <->
  d = (px p - px q) * (px p - px q) + (py p - py q) * (py p - py q) /\ (is_int (px p - px q) /\ is_int (py p - py q)) /\ d < 2 ^ 63.
Proof. exact pt_dist_sq_inv. Qed.
Theorem C17_distance_squared_overflow_refuted : exists p q, pt_int p /\ pt_int q /\
  (is_int (px p - px q) /\ is_int (py p - py q)) /\ pt_dist_sq p q = Overflow.
Proof. exact dist_sq_overflow_refuted. Qed.
Theorem C17_distance_squared_small : forall p q,
  - 2 ^ 30 <= px p <= 2 ^ 30 - 1 /\ - 2 ^ 30 <= py p <= 2 ^ 30 - 1 -> - 2 ^ 30 <= px q <= 2 ^ 30 - 1 /\ - 2 ^ 30 <= py q <= 2 ^ 30 - 1 ->
  pt_dist_sq p q = Ok ((px p - px q) * (px p - px q) + (py p - py q) * (py p - py q)).
Proof. exact dist_sq_small. Qed.
Theorem C17_rectangle_delta : forall r o, rect_int r -> r_delta r o = Ok (hi (r_get r o) - lo (r_get r o)).
Proof. exact r_delta_eq. Qed.
Theorem C17_rectangle_perimeter : forall r, rect_int r ->
  r_perimeter r = Ok (2 * ((xh r - xl r) + (yh r - yl r))) /\ r_half_perimeter r = Ok ((xh r - xl r) + (yh r - yl r)).
Proof. exact r_perimeter_eq. Qed.
Theorem C17_rectangle_guess_orientation : forall r, rect_int r ->
  r_guess_orientation r = Ok (if (yh r - yl r) <=? (xh r - xl r) then Horizontal else Vertical).
Proof. exact r_guess_eq. Qed.
Theorem C17_rectangle_area : forall r, rect_int r -> rect_ok r ->
  (r_area r = Ok ((xh r - xl r) * (yh r - yl r)) <-> (xh r - xl r) * (yh r - yl r) < 2 ^ 63) /\
  (r_area r = Overflow <-> 2 ^ 63 <= (xh r - xl r) * (yh r - yl r)).
Proof. exact r_area_eq. Qed.
Theorem C17_rectangle_area_narrow : forall r, rect_int r -> rect_ok r ->
  (xh r - xl r <= INT_MAX \/ yh r - yl r <= INT_MAX) -> r_area r = Ok ((xh r - xl r) * (yh r - yl r)).
Proof. exact r_area_small. Qed.
Theorem C17_rectangle_area_refuted : exists r, rect_int r /\ rect_ok r /\ r_area r = Overflow.
Proof. exact r_area_refuted. Qed.
Theorem C17_rectangle_center_defined : forall r, (exists c, r_center r = Ok c) <-> is_int (xl r + xh r) /\ is_int (yl r + yh r).
Proof. exact r_center_defined. Qed.
Theorem C17_rectangle_center : forall r c, rect_ok r -> r_center r = Ok c -> in_rectq true r (qpt c).
Proof. exact r_center_spec. Qed.
Theorem C17_rectangle_half : forall r o high h, rect_ok r -> r_get_half r o high = Ok h ->
  exists c, ivl_center (r_get r o) = Ok c /\ lo (r_get r o) <= c <= hi (r_get r o) /\
    h = r_set r o (if high then mk_ivl c (hi (r_get r o)) else mk_ivl (lo (r_get r o)) c).
Proof. exact r_get_half_spec. Qed.
Example C17_hypotheses : rect_int (mk_rect INT_MIN INT_MAX 0 7) /\ rect_ok (mk_rect INT_MIN INT_MAX 0 7) /\
  r_area (mk_rect INT_MIN INT_MAX 0 7) = Ok 30064771065 /\ r_center (mk_rect 1 4 5 5) = Ok (mk_pt 2 5) /\
  pt_manhattan (mk_pt 1 2) (mk_pt (-3) 7) = Ok 9 /\ r_get_half (mk_rect 1 4 5 9) Vertical true = Ok (mk_rect 1 4 7 9).
Proof. vm_compute. repeat split; discriminate. Qed.

(* ---------- C18: distances ---------- *)
Theorem C18_rectangle_manhattan : forall r s, rect_ok r -> rect_ok s -> rect_int r -> rect_int s ->
  exists d, r_manhattan r s = Ok d /\ least_of l1_dist (in_rectq true r) (in_rectq true s) (inject_Z d).
Proof. exact r_manhattan_spec. Qed.
Theorem C18_rectangle_point_manhattan : forall r p, rect_ok r -> rect_int r -> pt_int p ->
  exists d, r_manhattan_pt r p = Ok d /\ least_of l1_dist (in_rectq true r) (fun q => same_pt q (qpt p)) (inject_Z d).
Proof. exact r_manhattan_pt_spec. Qed.
Theorem C18_rectangle_square_distance : forall r s d, rect_ok r -> rect_ok s -> rect_int r -> rect_int s -> r_sq_dist r s = Ok d ->
  least_of sq_dist (in_rectq true r) (in_rectq true s) (inject_Z d).
Proof. exact r_sq_dist_least. Qed.
Theorem C18_rectangle_point_square_distance : forall r p d, rect_ok r -> rect_int r -> pt_int p -> r_sq_dist_pt r p = Ok d ->
  least_of sq_dist (in_rectq true r) (fun q => same_pt q (qpt p)) (inject_Z d).
Proof. exact r_sq_dist_pt_least. Qed.
Theorem C18_rectangle_square_distance_defined : forall r s, rect_ok r -> rect_ok s -> rect_int r -> rect_int s ->
  xl r - xh s <= INT_MAX -> xl s - xh r <= INT_MAX -> yl r - yh s <= INT_MAX -> yl s - yh r <= INT_MAX ->
  exists d, r_sq_dist r s = Ok d.
Proof. exact r_sq_dist_defined. Qed.
Theorem C18_rectangle_square_distance_refuted : exists r s, rect_ok r /\ rect_ok s /\ rect_int r /\ rect_int s /\ r_sq_dist r s = Overflow.
Proof. exact r_sq_dist_refuted. Qed.
(* euclidean_distance of two rectangles takes the root of the square cast to int *)
Theorem C18_rectangle_distance_small : forall r s d, r_sq_dist r s = Ok d -> 0 <= d <= INT_MAX -> r_dist_radicand r s = Ok d.
Proof. exact r_radicand_small. Qed.
Theorem C18_rectangle_distance_refuted : exists r s d, rect_ok r /\ rect_ok s /\ rect_int r /\ rect_int s /\
  r_sq_dist r s = Ok d /\ 0 < d /\ r_dist_radicand r s = Ok 0.
Proof. exact r_radicand_refuted. Qed.
Theorem C18_rectangle_distance_negative_refuted : exists r s z, rect_ok r /\ rect_ok s /\ rect_int r /\ rect_int s /\ r_dist_radicand r s = Ok z /\ z < 0.
Proof. exact r_radicand_negative. Qed.
Example C18_hypotheses : let r := mk_rect 0 10 2 5 in let s := mk_rect 13 14 9 12 in
  rect_ok r /\ rect_int r /\ rect_int s /\ r_sq_dist r s = Ok 25 /\ r_manhattan r s = Ok 7 /\ r_sq_dist_pt r (mk_pt (-2) 3) = Ok 4.
Proof. vm_compute. repeat split; discriminate. Qed.

(* ---------- C27: points ---------- *)
Theorem C27_equivalence : forall p q, pt_eqb p q = true <-> p = q.
Proof. exact pt_eqb_spec. Qed.
Theorem C27_less_lexicographic : forall p q, pt_less p q = true <-> px p < px q \/ (px p = px q /\ py p < py q).
Proof. exact pt_less_lex. Qed.
Theorem C27_less_irreflexive : forall p, pt_less p p = false.
Proof. exact pt_less_irrefl. Qed.
Theorem C27_less_transitive : forall p q r, pt_less p q = true -> pt_less q r = true -> pt_less p r = true.
Proof. exact pt_less_trans. Qed.
Theorem C27_less_total : forall p q, pt_less p q = true \/ p = q \/ pt_less q p = true.
Proof. exact pt_less_total. Qed.
Theorem C27_convolve : forall p q r, pt_convolve p q = Ok r <->
  r = mk_pt (px p + px q) (py p + py q) /\ is_int (px p + px q) /\ is_int (py p + py q).
Proof. exact pt_convolve_inv. Qed.
Theorem C27_deconvolve : forall p q r, pt_deconvolve p q = Ok r <->
  r = mk_pt (px p - px q) (py p - py q) /\ is_int (px p - px q) /\ is_int (py p - py q).
Proof. exact pt_deconvolve_inv. Qed.
Theorem C27_convolve_inverse : forall p q r, pt_int p -> pt_convolve p q = Ok r -> pt_deconvolve r q = Ok p.
Proof. exact pt_convolve_inverse. Qed.
Theorem C27_deconvolve_inverse : forall p q r, pt_int p -> pt_deconvolve p q = Ok r -> pt_convolve r q = Ok p.
Proof. exact pt_deconvolve_inverse. Qed.
Theorem C27_convolve_commutes : forall p q, pt_convolve p q = pt_convolve q p.
Proof. exact pt_convolve_comm. Qed.
Theorem C27_move : forall p o d r, pt_move p o d = Ok r <->
  r = match o with Horizontal => mk_pt (px p + d) (py p) | Vertical => mk_pt (px p) (py p + d) end /\ is_int (pt_get p o + d).
Proof. exact pt_move_inv. Qed.
Theorem C27_move_inverse : forall p o d r, pt_int p -> pt_move p o d = Ok r -> pt_move r o (- d) = Ok p.
Proof. exact pt_move_inverse. Qed.
Theorem C27_scale_up : forall p k r, is_int k ->
  (pt_scale_up p k = Ok r <-> r = mk_pt (px p * k) (py p * k) /\ is_int (px p * k) /\ is_int (py p * k)).
Proof. exact pt_scale_up_inv. Qed.
Theorem C27_scale_down : forall p k, 0 < k ->
  px (pt_scale_down p k) = Qfloor (inject_Z (px p) / inject_Z k + (1 # 2)) /\ py (pt_scale_down p k) = Qfloor (inject_Z (py p) / inject_Z k + (1 # 2)).
Proof. intros p k K. unfold pt_scale_down; cbn [px py]. split; apply Qfloor_div; exact K. Qed.
Theorem C27_scale_inverse : forall p k r, 0 < k -> is_int k -> pt_scale_up p k = Ok r -> pt_scale_down r k = p.
Proof. exact pt_scale_inverse. Qed.
Theorem C27_manhattan_l1 : forall p q d, pt_manhattan p q = Ok d -> (inject_Z d == l1_dist (qpt p) (qpt q))%Q.
Proof. exact manhattan_l1. Qed.
Theorem C27_manhattan_metric : forall p q r dpq dqr dpr, pt_manhattan p q = Ok dpq -> pt_manhattan q r = Ok dqr -> pt_manhattan p r = Ok dpr ->
  0 <= dpq /\ (dpq = 0 <-> p = q) /\ dpr <= dpq + dqr.
Proof. exact manhattan_metric. Qed.
Theorem C27_manhattan_symmetric : forall p q d, is_int (px q - px p) -> is_int (py q - py p) -> pt_manhattan p q = Ok d -> pt_manhattan q p = Ok d.
Proof. exact manhattan_sym. Qed.
Example C27_hypotheses : pt_int (mk_pt 3 (-4)) /\ pt_convolve (mk_pt 3 (-4)) (mk_pt 1 1) = Ok (mk_pt 4 (-3)) /\
  pt_move (mk_pt 3 (-4)) Vertical 10 = Ok (mk_pt 3 6) /\ pt_scale_up (mk_pt 3 (-4)) 10 = Ok (mk_pt 30 (-40)) /\
  pt_scale_down (mk_pt 35 (-35)) 10 = mk_pt 4 (-3).
Proof. vm_compute. repeat split; discriminate. Qed.

Print Assumptions C19_boundaries_touch.
Print Assumptions C19_boundaries_open.
Print Assumptions C19_intersect_touch.
Print Assumptions C19_encompass.
Print Assumptions C19_join_with.
Print Assumptions C20_convolve.
Print Assumptions C20_transform.
Print Assumptions C20_transformation_object.
Print Assumptions C20_shrink.
Print Assumptions C17_rectangle_area.
Print Assumptions C18_rectangle_square_distance.
Print Assumptions C18_rectangle_manhattan.
Print Assumptions C27_scale_down.
Print Assumptions C27_manhattan_metric.

Print Assumptions C19_contains.
Print Assumptions C19_contains_point.
Print Assumptions C19_intersects_touch.
Print Assumptions C19_intersects_open.
Print Assumptions C19_abuts.
Print Assumptions C19_abuts_direction.
Print Assumptions C19_abuts_orientation.
Print Assumptions C19_intersect_open_meeting.
Print Assumptions C19_intersect_open_disjoint.
Print Assumptions C19_intersect_open_refuted.
Print Assumptions C19_encompass_point.
Print Assumptions C19_join_with_when.
Print Assumptions C19_set_points.
Print Assumptions C19_less_irreflexive.
Print Assumptions C19_less_transitive.
Print Assumptions C19_less_total.
Print Assumptions C20_convolve_point.
Print Assumptions C20_deconvolve_point.
Print Assumptions C20_convolve_point_inverse.
Print Assumptions C20_deconvolve.
Print Assumptions C20_convolve_inverse.
Print Assumptions C20_reflected_convolve.
Print Assumptions C20_reflected_inverse.
Print Assumptions C20_move.
Print Assumptions C20_move_defined.
Print Assumptions C20_bloat.
Print Assumptions C20_bloat_shrink_inverse.
Print Assumptions C20_bloat_direction.
Print Assumptions C20_shrink_direction.
Print Assumptions C20_scale_up.
Print Assumptions C20_scale_inverse.
Print Assumptions C20_scale_refuted.
Print Assumptions C17_point_distance_defined.
Print Assumptions C17_point_distance.
Print Assumptions C17_manhattan.
Print Assumptions C17_manhattan_overflow_refuted.
Print Assumptions C17_distance_squared.
Print Assumptions C17_distance_squared_overflow_refuted.
Print Assumptions C17_distance_squared_small.
Print Assumptions C17_rectangle_delta.
Print Assumptions C17_rectangle_perimeter.
Print Assumptions C17_rectangle_guess_orientation.
Print Assumptions C17_rectangle_area_narrow.
Print Assumptions C17_rectangle_area_refuted.
Print Assumptions C17_rectangle_center_defined.
Print Assumptions C17_rectangle_center.
Print Assumptions C17_rectangle_half.
Print Assumptions C18_rectangle_point_manhattan.
Print Assumptions C18_rectangle_point_square_distance.
Print Assumptions C18_rectangle_square_distance_defined.
Print Assumptions C18_rectangle_square_distance_refuted.
Print Assumptions C18_rectangle_distance_small.
Print Assumptions C18_rectangle_distance_refuted.
Print Assumptions C18_rectangle_distance_negative_refuted.
Print Assumptions C27_equivalence.
Print Assumptions C27_less_lexicographic.
Print Assumptions C27_less_irreflexive.
Print Assumptions C27_less_transitive.
Print Assumptions C27_less_total.
Print Assumptions C27_convolve.
Print Assumptions C27_deconvolve.
Print Assumptions C27_convolve_inverse.
Print Assumptions C27_deconvolve_inverse.
Print Assumptions C27_convolve_commutes.
Print Assumptions C27_move.
Print Assumptions C27_move_inverse.
Print Assumptions C27_scale_up.
Print Assumptions C27_scale_inverse.
Print Assumptions C27_manhattan_l1.
Print Assumptions C27_manhattan_symmetric.
