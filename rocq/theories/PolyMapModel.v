(* Model of the polygon functions of polygon_traits.hpp that change the polygon,
   for int coordinates: assign from a rectangle, convolve, move, transform,
   scale_up, scale_down, snap_to_45. *)
From Verif Require Import Base Units Outcome Scan90Spec Poly90Spec Poly90Model Set90Spec Set90Model GeoSpec IvlModel RectModel SegModel PolySpec PolyModel.

(* assign(polygon, rect), 567-577. A polygon_90 stores the points with
   set_points, polygon_90_data.hpp:23-29. *)
Definition poly_of_rect (r : rect) : list point :=
  [mk_pt (xl r) (yl r); mk_pt (xh r) (yl r); mk_pt (xh r) (yh r); mk_pt (xl r) (yh r)].
Definition poly90_of_rect (r : rect) : list Z := points_to_compact (poly_of_rect r).

(* the loops that copy the points and change each copy *)
Fixpoint map_points (f : point -> outcome point) (l : list point) : outcome (list point) :=
  match l with
  | [] => Ok []
  | p :: l' => try q <- f p; try t <- map_points f l'; Ok (q :: t)
  end.
(* ... followed by set_points of a polygon_90 *)
Definition map_compact (f : point -> outcome point) (l : list Z) : outcome (list Z) :=
  try ps <- map_points f (compact_to_points l); Ok (points_to_compact ps).
(* the overloads for polygons with holes: 618-639, 670-688, 705-722, 877-895 *)
Fixpoint map_holes {A : Type} (f : A -> outcome A) (hs : list A) : outcome (list A) :=
  match hs with
  | [] => Ok []
  | h :: hs' => try k <- f h; try t <- map_holes f hs'; Ok (k :: t)
  end.
Definition map_gpoly (f : list point -> outcome (list point)) (g : gpoly) : outcome gpoly :=
  try o <- f (g_outer g); try hs <- map_holes f (g_holes g); Ok (mk_gpoly o hs).
(* the outer boundary of a polygon_90 goes through a hole_type by its points *)
Definition map_poly90 (f : list Z -> outcome (list Z)) (g : poly90) : outcome poly90 :=
  try o <- f (points_to_compact (compact_to_points (p_outer g)));
  try hs <- map_holes f (p_holes g); Ok (mk_poly90 o hs).

(* convolve of a polygon_90, 580-597 *)
Fixpoint convolve_go (pingpong : bool) (d : point) (l : list Z) : outcome (list Z) :=
  match l with
  | [] => Ok []
  | c :: l' =>
      try v <- chk (c + (if pingpong then px d else py d));
      try t <- convolve_go (negb pingpong) d l'; Ok (v :: t)
  end.
Definition convolve_90 (d : point) (l : list Z) : outcome (list Z) := convolve_go true d l.
(* convolve of other polygons, 599-616 *)
Definition convolve_pts (d : point) (l : list point) : outcome (list point) := map_points (fun p => pt_convolve p d) l.
(* move, 641-648 *)
Definition move_by (o : orient) (d : Z) : point := match o with Horizontal => mk_pt d 0 | Vertical => mk_pt 0 d end.
Definition move_90 (o : orient) (d : Z) (l : list Z) : outcome (list Z) := convolve_90 (move_by o d) l.
Definition move_pts (o : orient) (d : Z) (l : list point) : outcome (list point) := convolve_pts (move_by o d) l.
(* transform, 655-668 *)
Definition transform_pts (f : Z * Z -> outcome (Z * Z)) (l : list point) : outcome (list point) := map_points (pt_map f) l.
Definition transform_90 (f : Z * Z -> outcome (Z * Z)) (l : list Z) : outcome (list Z) := map_compact (pt_map f) l.
(* axis_transformation::transform, transform.hpp:227-235, with int coordinates:
   the product with -1 overflows for INT_MIN *)
From Verif Require Import IsoModel.
Definition atr_int (atr : Z) (p : Z * Z) : outcome (Z * Z) :=
  let bit1 := zb (bitset atr 2) in
  let bit0 := zb (bitset atr 1) in
  try x <- chk (fst p * - (Z.shiftl bit0 1 - 1));
  try y <- chk (snd p * - (Z.shiftl bit1 1 - 1));
  Ok (predicated_swap (bitset atr 4) x y).
(* scale_up, 690-703 *)
Definition scale_up_pts (k : Z) (l : list point) : outcome (list point) := map_points (fun p => pt_scale_up p k) l.
Definition scale_up_90 (k : Z) (l : list Z) : outcome (list Z) := map_compact (fun p => pt_scale_up p k) l.
(* scale_down, 724-737 *)
Definition scale_down_pts (k : Z) (l : list point) : list point := map (fun p => pt_scale_down p k) l.
Definition scale_down_90 (k : Z) (l : list Z) : list Z := points_to_compact (scale_down_pts k (compact_to_points l)).

(* ---------- snap_point_vector_to_45, 742-818 ---------- *)
(* std::unique *)
Fixpoint uniq (l : list point) : list point :=
  match l with
  | [] => []
  | a :: t => match t with
              | [] => [a]
              | b :: _ => if pt_eqb a b then uniq t else a :: uniq t
              end
  end.
(* 745-750: fewer than three points: clear; else drop repeated points, and the
   last point if it equals the first *)
Definition snap_prepare (l : list point) : list point :=
  if (length l <? 3)%nat then []
  else
    let u := uniq l in
    match u with
    | [] => []
    | f :: _ => if pt_eqb (last u f) f then removelast u else u
    end.
(* 759-814: the new value of pt2, and whether the branch that may wrap around was
   taken with an odd difference *)
Definition snap_pt (pt1 pt2 pt3 : point) : outcome (point * bool) :=
  try dx <- chk (px pt2 - px pt1);
  try dy <- chk (py pt2 - py pt1);
  try bad <- (if negb (dx =? 0) && negb (dy =? 0) then try ax <- local_abs dx; try ay <- local_abs dy; Ok (negb (ax =? ay)) else Ok false);
  if bad then
    try ndx <- chk (px pt3 - px pt2);
    try ndy <- chk (py pt3 - py pt2);
    if negb (ndx =? 0) && negb (ndy =? 0) then
      try ax <- local_abs dx;
      try ay <- local_abs dy;
      try s <- chk (ax - ay);
      try diff <- local_abs s;
      let half := diff / 2 in
      let odd := diff mod 2 in
      if ((dx >? 0) && (dy >? 0)) || ((dx <? 0) && (dy <? 0)) then
        try u1 <- chk (dx + half + odd); try u2 <- local_abs u1;
        try v1 <- chk (dy - half); try v2 <- local_abs v1;
        if u2 =? v2 then
          try x <- chk (px pt2 + half + odd); try y <- chk (py pt2 - half); Ok (mk_pt x y, negb (odd =? 0))
        else
          try w1 <- chk (dx - half - odd); try w2 <- local_abs w1;
          try z1 <- chk (dy + half); try z2 <- local_abs z1;
          if w2 =? z2 then
            try x <- chk (px pt2 - half - odd); try y <- chk (py pt2 + half); Ok (mk_pt x y, negb (odd =? 0))
          else Ok (pt2, negb (odd =? 0))
      else
        try u1 <- chk (dx + half + odd); try u2 <- local_abs u1;
        try v1 <- chk (dy + half); try v2 <- local_abs v1;
        if u2 =? v2 then
          try x <- chk (px pt2 + half + odd); try y <- chk (py pt2 + half); Ok (mk_pt x y, negb (odd =? 0))
        else
          try w1 <- chk (dx - half - odd); try w2 <- local_abs w1;
          try z1 <- chk (dy - half); try z2 <- local_abs z1;
          if w2 =? z2 then
            try x <- chk (px pt2 - half - odd); try y <- chk (py pt2 - half); Ok (mk_pt x y, negb (odd =? 0))
          else Ok (pt2, negb (odd =? 0))
    else if negb (ndx =? 0) then
      try m <- local_abs dy;
      try x <- chk (px pt1 + (if dx <? 0 then m * -1 else m)); Ok (mk_pt x (py pt2), false)
    else
      try m <- local_abs dx;
      try y <- chk (py pt1 + (if dy <? 0 then m * -1 else m)); Ok (mk_pt (px pt2) y, false)
  else Ok (pt2, false).
Fixpoint set_nth (i : nat) (p : point) (l : list point) : list point :=
  match l, i with
  | [], _ => []
  | _ :: t, O => p :: t
  | a :: t, S j => a :: set_nth j p t
  end.
(* the body of the loop for index i *)
Definition snap_step (l : list point) (i : nat) : outcome (list point * bool) :=
  let n := length l in
  let j := ((i + 1) mod n)%nat in
  let k := ((i + 2) mod n)%nat in
  try ' (q, w) <- snap_pt (nth i l (mk_pt 0 0)) (nth j l (mk_pt 0 0)) (nth k l (mk_pt 0 0));
  Ok (set_nth j q l, w).
(* one pass over the indices; the flag is that of the last index *)
Fixpoint snap_pass (is : list nat) (l : list point) (w : bool) : outcome (list point * bool) :=
  match is with
  | [] => Ok (l, w)
  | i :: is' => try ' (l', w') <- snap_step l i; snap_pass is' l' w'
  end.
(* the loop: i is reset to -1 at most once, at the last index *)
Definition snap_points (l : list point) : outcome (list point) :=
  let l0 := snap_prepare l in
  let is := seq 0 (length l0) in
  try ' (l1, w) <- snap_pass is l0 false;
  if w then try ' (l2, _) <- snap_pass is l1 false; Ok l2 else Ok l1.
(* snap_to_45, 820-852 *)
Definition snap_gpoly (g : gpoly) : outcome gpoly := map_gpoly snap_points g.
(* scale_down of a 45-degree polygon, 854-875 *)
Definition scale_down_45 (k : Z) (l : list point) : outcome (list point) := snap_points (scale_down_pts k l).
