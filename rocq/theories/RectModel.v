(* Model of point_concept.hpp, point_data.hpp and rectangle_concept.hpp for int
   coordinates. get_corner (rectangle_concept.hpp:813-827) calls get(rectangle,
   direction_2d), which has no overload, and is left out; so are the distances
   that return the square root of a double. *)
From Verif Require Import Base Scan90Spec Set90Spec Set90Model GeoSpec IvlModel.

(* ---------- point_concept.hpp ---------- *)
(* pt_get, pt_set and pt_eqb: Poly90Model.v *)
(* euclidean_distance along an orientation, 264-286: the difference is computed
   in int and then converted to long long *)
Definition pt_dist_o (p q : point) (o : orient) : outcome Z :=
  try d <- chk (pt_get p o - pt_get q o); if d <? 0 then chk64 (- d) else Ok d.
(* manhattan_distance, 245-262 *)
Definition pt_manhattan (p q : point) : outcome Z :=
  try a <- pt_dist_o p q Horizontal; try b <- pt_dist_o p q Vertical; chk64 (a + b).
(* distance_squared, 288-310 *)
Definition pt_dist_sq (p q : point) : outcome Z :=
  try dx <- pt_dist_o p q Horizontal;
  try dy <- pt_dist_o p q Vertical;
  try dx2 <- chk64 (dx * dx);
  try dy2 <- chk64 (dy * dy);
  chk64 (dx2 + dy2).
(* convolve, deconvolve, 330-366 *)
Definition pt_convolve (p q : point) : outcome point :=
  try x <- chk (px p + px q); try y <- chk (py p + py q); Ok (mk_pt x y).
Definition pt_deconvolve (p q : point) : outcome point :=
  try x <- chk (px p - px q); try y <- chk (py p - py q); Ok (mk_pt x y).
(* scale_up, 368-383, for a factor of type unsigned long long or int: the
   factor is converted to int *)
Definition pt_scale_up (p : point) (k : Z) : outcome point :=
  try x <- chk (px p * wrap32 k); try y <- chk (py p * wrap32 k); Ok (mk_pt x y).
(* scale_down, 385-401: floor(x/k + 1/2) in long double. The quotient of two
   32-bit integers is computed with 64 bits of precision, which is enough for
   the floor to be the exact one; modelled for 0 < k < 2^31. *)
Definition round_div (x k : Z) : Z := (2 * x + k) / (2 * k).
Definition pt_scale_down (p : point) (k : Z) : point := mk_pt (round_div (px p) k) (round_div (py p) k).
(* scale 403-420, transform 422-439, with the function of the scale or
   transformation object *)
Definition pt_map (f : Z * Z -> outcome (Z * Z)) (p : point) : outcome point :=
  try ' (x, y) <- f (px p, py p); Ok (mk_pt x y).
(* move, 441-456 *)
Definition pt_move (p : point) (o : orient) (d : Z) : outcome point :=
  try c <- chk (pt_get p o + d); Ok (pt_set p o c).
(* point_data operator<, point_data.hpp:107-111 *)
Definition pt_less (p q : point) : bool :=
  (px p <? px q) || ((px p =? px q) && (py p <? py q)).

(* ---------- rectangle_concept.hpp ---------- *)
(* get 87-93, set 113-131 *)
Definition r_get (r : rect) (o : orient) : ivl := match o with Horizontal => horizontal r | Vertical => vertical r end.
Definition r_set (r : rect) (o : orient) (i : ivl) : rect :=
  match o with
  | Horizontal => mk_rect (lo i) (hi i) (yl r) (yh r)
  | Vertical => mk_rect (xl r) (xh r) (lo i) (hi i)
  end.
(* contains, 335-356 *)
Definition r_contains (r s : rect) (touch : bool) : bool :=
  contains_i (horizontal r) (horizontal s) touch && contains_i (vertical r) (vertical s) touch.
Definition r_contains_pt (r : rect) (p : point) (touch : bool) : bool :=
  contains_v (horizontal r) (px p) touch && contains_v (vertical r) (py p) touch.
(* set_points, 358-377 *)
Definition r_of_ivls (h v : ivl) : rect := mk_rect (lo h) (hi h) (lo v) (hi v).
Definition r_set_points (p q : point) : rect :=
  r_of_ivls (ivl_make (px p) (px q)) (ivl_make (py p) (py q)).
(* move, 379-391 *)
Definition r_move (r : rect) (o : orient) (d : Z) : outcome rect :=
  try i <- ivl_move (r_get r o) d; Ok (r_set r o i).
(* convolve etc. with a rectangle or a point, 393-488: the same interval
   operation on both intervals *)
Definition r_both (f g : ivl -> outcome ivl) (r : rect) : outcome rect :=
  try h <- f (horizontal r); try v <- g (vertical r); Ok (r_of_ivls h v).
Definition r_convolve (r s : rect) : outcome rect :=
  r_both (fun i => ivl_convolve i (horizontal s)) (fun i => ivl_convolve i (vertical s)) r.
Definition r_deconvolve (r s : rect) : outcome rect :=
  r_both (fun i => ivl_deconvolve i (horizontal s)) (fun i => ivl_deconvolve i (vertical s)) r.
Definition r_reflected_convolve (r s : rect) : outcome rect :=
  r_both (fun i => ivl_reflected_convolve i (horizontal s)) (fun i => ivl_reflected_convolve i (vertical s)) r.
Definition r_reflected_deconvolve (r s : rect) : outcome rect :=
  r_both (fun i => ivl_reflected_deconvolve i (horizontal s)) (fun i => ivl_reflected_deconvolve i (vertical s)) r.
Definition r_convolve_pt (r : rect) (p : point) : outcome rect :=
  r_both (fun i => ivl_convolve_v i (px p)) (fun i => ivl_convolve_v i (py p)) r.
Definition r_deconvolve_pt (r : rect) (p : point) : outcome rect :=
  r_both (fun i => ivl_deconvolve_v i (px p)) (fun i => ivl_deconvolve_v i (py p)) r.
(* delta 490-498, area 500-509, guess_orientation 511-520, half_perimeter
   522-530, perimeter 532-540: all in long long *)
Definition r_delta (r : rect) (o : orient) : outcome Z := ivl_delta (r_get r o).
Definition r_area (r : rect) : outcome Z :=
  try h <- r_delta r Horizontal; try v <- r_delta r Vertical; chk64 (h * v).
Definition r_guess_orientation (r : rect) : outcome orient :=
  try h <- r_delta r Horizontal; try v <- r_delta r Vertical;
  Ok (if h >=? v then Horizontal else Vertical).
Definition r_half_perimeter (r : rect) : outcome Z :=
  try h <- r_delta r Horizontal; try v <- r_delta r Vertical; chk64 (h + v).
Definition r_perimeter (r : rect) : outcome Z := try p <- r_half_perimeter r; chk64 (2 * p).
(* intersects, 542-556 *)
Definition r_intersects (r s : rect) (touch : bool) : bool :=
  intersects_i (horizontal r) (horizontal s) touch && intersects_i (vertical r) (vertical s) touch.
(* boundaries_intersect, 558-574 *)
Definition r_boundaries_intersect (r s : rect) (touch : bool) : bool :=
  r_intersects r s touch && negb (r_contains r s (negb touch)) && negb (r_contains s r (negb touch)).
(* abuts, 576-617 *)
Definition r_abuts_dir (r s : rect) (o : orient) (high : bool) : bool :=
  abuts_dir_i (r_get r o) (r_get s o) high && intersects_i (r_get r (perp o)) (r_get s (perp o)) true.
Definition r_abuts_o (r s : rect) (o : orient) : bool :=
  abuts_i (r_get r o) (r_get s o) && intersects_i (r_get r (perp o)) (r_get s (perp o)) true.
Definition r_abuts (r s : rect) : bool := r_abuts_o r s Horizontal || r_abuts_o r s Vertical.
(* intersect with an interval, 619-635 *)
Definition r_intersect_i (r : rect) (i : ivl) (o : orient) (touch : bool) : bool * rect :=
  let '(b, k) := intersect_i (r_get r o) i touch in
  if b then (true, r_set r o k) else (false, r).
(* intersect, 637-651: line 645 does not pass consider_touch on *)
Definition r_intersect (r s : rect) (touch : bool) : bool * rect :=
  if r_intersects r s true then
    let r1 := snd (r_intersect_i r (horizontal s) Horizontal touch) in
    let r2 := snd (r_intersect_i r1 (vertical s) Vertical touch) in
    (true, r2)
  else (false, r).
(* generalized_intersect, 653-669 *)
Definition r_generalized_intersect (r s : rect) : rect :=
  r_of_ivls (generalized_intersect_i (horizontal r) (horizontal s)) (generalized_intersect_i (vertical r) (vertical s)).
(* bloat, 671-709; shrink, 711-742 *)
Definition r_bloat_o (r : rect) (o : orient) (b : Z) : outcome rect :=
  try i <- ivl_bloat (r_get r o) b; Ok (r_set r o i).
Definition r_bloat (r : rect) (b : Z) : outcome rect :=
  try r1 <- r_bloat_o r Horizontal b; r_bloat_o r1 Vertical b.
Definition r_bloat_dir (r : rect) (o : orient) (high : bool) (b : Z) : outcome rect :=
  try i <- ivl_bloat_dir (r_get r o) high b; Ok (r_set r o i).
Definition r_shrink_o (r : rect) (o : orient) (b : Z) : outcome rect := try m <- chk (- b); r_bloat_o r o m.
Definition r_shrink (r : rect) (b : Z) : outcome rect := try m <- chk (- b); r_bloat r m.
Definition r_shrink_dir (r : rect) (o : orient) (high : bool) (b : Z) : outcome rect :=
  try m <- chk (- b); r_bloat_dir r o high m.
(* encompass, 744-797 *)
Definition r_encompass_i (r : rect) (i : ivl) (o : orient) : bool * rect :=
  let '(b, k) := encompass_i (r_get r o) i in
  if b then (true, r_set r o k) else (false, r).
Definition r_encompass (r s : rect) : bool * rect :=
  let '(b1, r1) := r_encompass_i r (horizontal s) Horizontal in
  let '(b2, r2) := r_encompass_i r1 (vertical s) Vertical in
  (b1 || b2, r2).
Definition r_encompass_pt (r : rect) (p : point) : bool * rect :=
  let '(b1, h) := encompass_v (horizontal r) (px p) in
  let '(b2, v) := encompass_v (vertical r) (py p) in
  if b1 || b2 then (true, r_of_ivls h v) else (false, r).
(* center, 799-811 *)
Definition r_center (r : rect) : outcome point :=
  try x <- ivl_center (horizontal r); try y <- ivl_center (vertical r); Ok (mk_pt x y).
(* get_half, 829-838 *)
Definition r_get_half (r : rect) (o : orient) (high : bool) : outcome rect :=
  try i <- ivl_get_half (r_get r o) high; Ok (r_set r o i).
(* join_with, 840-862 *)
Definition r_join_with (r s : rect) : bool * rect :=
  let '(bv, v) := join_with_i (vertical r) (vertical s) in
  let '(bh, h) := join_with_i (horizontal r) (horizontal s) in
  if ivl_equiv (horizontal r) (horizontal s) && bv then (true, r_set r Vertical v)
  else if ivl_equiv (vertical r) (vertical s) && bh then (true, r_set r Horizontal h)
  else (false, r).
(* euclidean_distance along an orientation, 864-885 *)
Definition r_dist_pt_o (r : rect) (p : point) (o : orient) : outcome Z := ivl_dist_v (r_get r o) (pt_get p o).
Definition r_dist_o (r s : rect) (o : orient) : outcome Z := ivl_dist (r_get r o) (r_get s o).
(* square_euclidean_distance, 887-913 *)
Definition sum_sq (a b : Z) : outcome Z :=
  try a2 <- chk64 (a * a); try b2 <- chk64 (b * b); chk64 (a2 + b2).
Definition r_sq_dist_pt (r : rect) (p : point) : outcome Z :=
  try a <- r_dist_pt_o r p Horizontal; try b <- r_dist_pt_o r p Vertical; sum_sq a b.
Definition r_sq_dist (r s : rect) : outcome Z :=
  try a <- r_dist_o r s Horizontal; try b <- r_dist_o r s Vertical; sum_sq a b.
(* euclidean_distance of two rectangles, 925-934: the value under the root, after
   the cast to int *)
Definition r_dist_radicand (r s : rect) : outcome Z := try d <- r_sq_dist r s; Ok (wrap32 d).
(* manhattan_distance, 936-962 *)
Definition r_manhattan_pt (r : rect) (p : point) : outcome Z :=
  try a <- r_dist_pt_o r p Horizontal; try b <- r_dist_pt_o r p Vertical; chk64 (a + b).
Definition r_manhattan (r s : rect) : outcome Z :=
  try a <- r_dist_o r s Horizontal; try b <- r_dist_o r s Vertical; chk64 (a + b).
(* scale_up, scale_down, 964-990: the unsigned long long factor is converted to
   the int parameter of the interval functions *)
Definition r_scale_up (r : rect) (k : Z) : outcome rect :=
  r_both (fun i => ivl_scale_up i (wrap32 k)) (fun i => ivl_scale_up i (wrap32 k)) r.
Definition r_scale_down (r : rect) (k : Z) : outcome rect :=
  r_both (fun i => ivl_scale_down i (wrap32 k)) (fun i => ivl_scale_down i (wrap32 k)) r.
(* scale, 992-1004: both points are the lower left corner *)
Definition r_scale (f : Z * Z -> outcome (Z * Z)) (r : rect) : outcome rect :=
  try ll <- pt_map f (mk_pt (xl r) (yl r));
  try ur <- pt_map f (mk_pt (xl r) (yl r));
  Ok (r_set_points ll ur).
(* transform, 1006-1018 *)
Definition r_transform (f : Z * Z -> outcome (Z * Z)) (r : rect) : outcome rect :=
  try ll <- pt_map f (mk_pt (xl r) (yl r));
  try ur <- pt_map f (mk_pt (xh r) (yh r));
  Ok (r_set_points ll ur).
(* less_rectangle_concept, 1020-1055 *)
Definition r_less (o : orient) (a b : rect) : bool :=
  let ia := r_get a o in let ib := r_get b o in
  let ja := r_get a (perp o) in let jb := r_get b (perp o) in
  if lo ia >? lo ib then false
  else if lo ia =? lo ib then
    if lo ja >? lo jb then false
    else if lo ja =? lo jb then
      if hi ia >? hi ib then false
      else if hi ia =? hi ib then hi ja <? hi jb
      else true
    else true
  else true.
