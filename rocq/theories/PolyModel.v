(* Model of the polygon functions of polygon_traits.hpp that only read the
   polygon, for int coordinates: area, winding, is_45, perimeter, contains,
   edge_utils, extents, center. A polygon without holes is its list of points
   (polygon_data) or its list of compact coordinates (polygon_90_data). *)
From Verif Require Import Base Units Outcome Scan90Spec Poly90Spec Poly90Model Set90Spec Set90Model GeoSpec IvlModel RectModel SegModel PolySpec.

(* ---------- area and winding ---------- *)
(* The area type of 45-degree and general polygons is long double (isotropy.hpp
   107-123). All values are multiples of one half; the model holds twice the
   value. [w] is the precision of long double in bits: 53 or more, 64 on x86. A
   value whose double is at most 2^w is exact; the model returns Overflow where a
   greater value turns up, which may have been rounded. *)
Definition chkf (w z : Z) : outcome Z := if (- 2 ^ w <=? z) && (z <=? 2 ^ w) then Ok z else Overflow.
(* point_sequence_area with long double, 958-997: one edge. The differences and their
   sum are exact for int coordinates. *)
Definition area_edge_d (w : Z) (y_base : Z) (a b : point) (area2 : Z) : outcome Z :=
  try p <- chkf w ((px b - px a) * ((py b - y_base) + (py a - y_base)));
  chkf w (area2 + p).
Fixpoint area_loop_d (w : Z) (y_base : Z) (previous : point) (area2 : Z) (l : list point) : outcome (Z * point) :=
  match l with
  | [] => Ok (area2, previous)
  | q :: l' =>
      try area2' <- (if px previous =? px q then Ok area2 else area_edge_d w y_base previous q area2);
      area_loop_d w y_base q area2' l'
  end.
Definition points_area_d (w : Z) (l : list point) : outcome Z :=
  match l with
  | [] => Ok 0
  | first :: l' =>
      try ' (area2, previous) <- area_loop_d w (py first) first 0 l';
      if pt_eqb first previous then Ok area2 else area_edge_d w (py first) previous first area2
  end.
(* area, 999-1020: twice the area *)
Fixpoint minus_holes_d (w : Z) (a : Z) (hs : list (list point)) : outcome Z :=
  match hs with
  | [] => Ok a
  | h :: hs' => try v <- points_area_d w h; try a' <- chkf w (a - Z.abs v); minus_holes_d w a' hs'
  end.
Definition poly_area_d (w : Z) (g : gpoly) : outcome Z :=
  try v <- points_area_d w (g_outer g); minus_holes_d w (Z.abs v) (g_holes g).
(* the same for polygon_90: long long. The only value whose negation overflows
   is -2^63. *)
Fixpoint minus_holes_90 (a : Z) (hs : list (list Z)) : outcome Z :=
  match hs with
  | [] => Ok a
  | h :: hs' =>
      try v <- points_area (compact_to_points h);
      try w <- (if v <? 0 then chk64 (v * -1) else Ok v);
      try a' <- chk64 (a - w); minus_holes_90 a' hs'
  end.
Definition poly_area_90 (g : poly90) : outcome Z :=
  try v <- points_area (compact_to_points (p_outer g));
  try w <- (if v <? 0 then chk64 (v * -1) else Ok v);
  minus_holes_90 w (p_holes g).
(* winding, 1103-1115, of a type with unknown_winding: true is COUNTERCLOCKWISE.
   For polygon_90: points_ccw (Poly90Model.v). *)
Definition points_ccw_d (w : Z) (l : list point) : outcome bool := try a <- points_area_d w l; Ok (a <? 0).

(* ---------- is_45 ---------- *)
(* local_abs, 739-740 *)
Definition local_abs (v : Z) : outcome Z := if v <? 0 then chk (- v) else Ok v.
(* the test of one edge, 1032-1036: int arithmetic; true: not a 45-degree edge *)
Definition non45 (a b : point) : outcome bool :=
  try dx <- chk (px b - px a);
  try dy <- chk (py b - py a);
  if negb (dx =? 0) && negb (dy =? 0) then
    try ax <- local_abs dx; try ay <- local_abs dy; Ok (negb (ax =? ay))
  else Ok false.
(* point_sequence_is_45, 1022-1046 *)
Fixpoint is45_loop (first prev : point) (l : list point) : outcome bool :=
  match l with
  | [] => try b <- non45 prev first; Ok (negb b)
  | p :: l' => try b <- non45 prev p; if b then Ok false else is45_loop first p l'
  end.
Definition points_is45 (l : list point) : outcome bool :=
  match l with [] => Ok true | f :: t => is45_loop f f t end.
(* is_45, 1048-1060: for every hole the outer boundary is tested again *)
Fixpoint is45_holes (outer : list point) (hs : list (list point)) : outcome bool :=
  match hs with
  | [] => Ok true
  | h :: hs' => try b <- points_is45 outer; if b then is45_holes outer hs' else Ok false
  end.
Definition poly_is45 (g : gpoly) : outcome bool :=
  try b <- points_is45 (g_outer g); if b then is45_holes (g_outer g) (g_holes g) else Ok false.

(* ---------- perimeter ---------- *)
(* euclidean_distance, point_concept.hpp:312-321: the square root of
   distance_squared, computed in double and here converted to long long, the
   distance type of the Manhattan domain. Modelled for squares of integers of at
   most 32 bits, for which the result is exact; other edges do not occur in a
   polygon_90. *)
Definition pt_euclid (p q : point) : outcome Z := try d <- pt_dist_sq p q; Ok (Z.sqrt d).
(* point_sequence_distance, 1062-1080 *)
Fixpoint dist_loop (first prev : point) (sum : Z) (l : list point) : outcome Z :=
  match l with
  | [] => try d <- pt_euclid prev first; chk64 (sum + d)
  | p :: l' => try d <- pt_euclid p prev; try s <- chk64 (sum + d); dist_loop first p s l'
  end.
Definition points_perimeter (l : list point) : outcome Z :=
  match l with [] => Ok 0 | f :: t => dist_loop f f 0 t end.
(* perimeter, 1082-1101, of a polygon_90 with holes *)
Fixpoint plus_holes (s : Z) (hs : list (list Z)) : outcome Z :=
  match hs with
  | [] => Ok s
  | h :: hs' => try d <- points_perimeter (compact_to_points h); try s' <- chk64 (s + d); plus_holes s' hs'
  end.
Definition poly_perimeter_90 (g : poly90) : outcome Z :=
  try d <- points_perimeter (compact_to_points (p_outer g)); plus_holes d (p_holes g).

(* ---------- contains for polygon_90, 1117-1179 ---------- *)
(* what one edge does: None: return consider_touch; otherwise what it adds to
   the two counters *)
Definition c90_edge (pt a b : point) : option (Z * Z) :=
  if px a =? px b then
    if px a >? px pt then Some (0, 0)
    else
      let min_y := Z.min (py a) (py b) in
      let max_y := Z.max (py a) (py b) in
      let half := if (py pt =? min_y) || (py pt =? max_y) then (if py a <? py b then 1 else -1) else 0 in
      if (py pt >? min_y) && (py pt <? max_y) then
        if px a =? px pt then None else Some (1, half)
      else Some (0, half)
  else
    let min_x := Z.min (px a) (px b) in
    let max_x := Z.max (px a) (px b) in
    if (px pt >=? min_x) && (px pt <=? max_x) && (py a =? py pt) then None else Some (0, 0).
(* the loop; the counters, which are ints, have no bound in the model *)
Fixpoint c90_loop (pt : point) (touch : bool) (first : point) (full half : Z) (l : list point) : bool :=
  match l with
  | [] => negb (Z.land (full + Z.shiftr half 1) 1 =? 0)
  | a :: l' =>
      let b := match l' with [] => first | q :: _ => q end in
      match c90_edge pt a b with
      | None => touch
      | Some (f, h) => c90_loop pt touch first (full + f) (half + h) l'
      end
  end.
Definition points_contains_90 (l : list point) (pt : point) (touch : bool) : bool :=
  match l with [] => false | f :: _ => c90_loop pt touch f 0 0 l end.
Definition contains_90 (l : list Z) (pt : point) (touch : bool) : bool :=
  points_contains_90 (compact_to_points l) pt touch.

(* ---------- edge_utils, 1181-1285 ---------- *)
(* The differences of int coordinates and their negations fit in long long. *)
(* less_point 1188-1201: pt_less (RectModel.v) *)
Definition eu_between (pt pt1 pt2 : point) : bool :=
  if pt_less pt1 pt2 then pt_less pt pt2 && pt_less pt1 pt else pt_less pt pt1 && pt_less pt2 pt.
Definition eu_abs (d : Z) : Z := if d <? 0 then - d else d.
Definition eu_sign (d : Z) : Z := if d <? 0 then -1 else 1.
Definition eu_equal_slope4 (dx1 dy1 dx2 dy2 : Z) : bool :=
  let cross_1 := umul64 (eu_abs dx2) (eu_abs dy1) in
  let cross_2 := umul64 (eu_abs dx1) (eu_abs dy2) in
  let s1 := eu_sign dx2 * eu_sign dy1 in
  let s2 := eu_sign dx1 * eu_sign dy2 in
  (cross_1 =? cross_2) && ((s1 =? s2) || (cross_1 =? 0)).
Definition eu_equal_slope (p pt1 pt2 : point) : bool :=
  eu_equal_slope4 (px pt1 - px p) (py pt1 - py p) (px pt2 - px p) (py pt2 - py p).
Definition eu_less_slope4 (dx1 dy1 dx2 dy2 : Z) : bool :=
  if dx1 =? 0 then false
  else
    let '(dx1, dy1) := if dx1 <? 0 then (dx1 * -1, dy1 * -1) else (dx1, dy1) in
    if dx2 =? 0 then negb (dx1 =? 0)
    else
      let '(dx2, dy2) := if dx2 <? 0 then (dx2 * -1, dy2 * -1) else (dx2, dy2) in
      let cross_1 := umul64 (eu_abs dx2) (eu_abs dy1) in
      let cross_2 := umul64 (eu_abs dx1) (eu_abs dy2) in
      let s1 := eu_sign dx2 * eu_sign dy1 in
      let s2 := eu_sign dx1 * eu_sign dy2 in
      if s1 <? s2 then true
      else if s2 <? s1 then false
      else if s1 =? -1 then cross_2 <? cross_1
      else cross_1 <? cross_2.
Definition eu_less_slope (p pt1 pt2 : point) : bool :=
  eu_less_slope4 (px pt1 - px p) (py pt1 - py p) (px pt2 - px p) (py pt2 - py p).
Definition eu_on_above_or_below (p a b : point) : Z :=
  if pt_eqb p a || pt_eqb p b then 0
  else if eu_equal_slope p a b then 0
  else
    let r := if eu_less_slope p a b then -1 else 1 in
    let r := if pt_less b a then r * -1 else r in
    if eu_between p a b then r else r * -1.

(* ---------- contains for 45-degree and general polygons, 1312-1377 ---------- *)
(* what one edge that is not of length zero does: None: return consider_touch;
   otherwise what it adds to the counter *)
Definition cg_edge (pt a b : point) : option Z :=
  if pt_eqb pt b then None
  else
    let xmin := Z.min (px a) (px b) in
    let xmax := Z.max (px a) (px b) in
    if (px pt >=? xmin) && (px pt <? xmax) then
      let o := eu_on_above_or_below pt a b in
      if o =? 0 then None else Some (if o =? 1 then 1 else 0)
    else if px pt =? xmax then
      if px pt =? xmin then
        if (py pt <=? Z.max (py a) (py b)) && (py pt >=? Z.min (py a) (py b)) then None else Some 0
      else if eu_on_above_or_below pt a b =? 0 then None else Some 0
    else Some 0.
(* the loop, over the points after the first one and the first one again *)
Fixpoint cg_loop (pt : point) (touch : bool) (prev : point) (above : Z) (l : list point) : bool :=
  match l with
  | [] => negb (Z.rem above 2 =? 0)
  | cur :: l' =>
      if pt_eqb cur prev then cg_loop pt touch prev above l'
      else match cg_edge pt prev cur with
           | None => touch
           | Some n => cg_loop pt touch cur (above + n) l'
           end
  end.
Definition contains_general (l : list point) (pt : point) (touch : bool) : bool :=
  match l with
  | [] => false
  | f :: t => match t with [] => false | _ => cg_loop pt touch f 0 (t ++ [f]) end
  end.
(* contains for polygons with holes, 1288-1310; [inside] is contains for the
   rings *)
Fixpoint in_no_hole {A : Type} (inside : A -> bool) (hs : list A) : bool :=
  match hs with [] => true | h :: hs' => if inside h then false else in_no_hole inside hs' end.
Definition contains_wh (g : gpoly) (pt : point) (touch : bool) : bool :=
  if contains_general (g_outer g) pt touch
  then in_no_hole (fun h => contains_general h pt (negb touch)) (g_holes g) else false.
Definition contains_wh_90 (g : poly90) (pt : point) (touch : bool) : bool :=
  if contains_90 (p_outer g) pt touch
  then in_no_hole (fun h => contains_90 h pt (negb touch)) (p_holes g) else false.

(* ---------- extents 1430-1448, center 1450-1460 ---------- *)
(* the return value and the box, which is unchanged if there is no point *)
Fixpoint ext_loop (box : rect) (l : list point) : rect :=
  match l with [] => box | p :: l' => ext_loop (snd (r_encompass_pt box p)) l' end.
Definition points_extents (box : rect) (l : list point) : bool * rect :=
  match l with
  | [] => (false, box)
  | p :: l' => (true, ext_loop (r_set_points p p) l')
  end.
(* the box starts as a default rectangle_data, all zero (rectangle_data.hpp:22,
   interval_data.hpp:26-30); the result of extents is ignored *)
Definition points_center (l : list point) : outcome point := r_center (snd (points_extents (mk_rect 0 0 0 0) l)).
