(* Model of polygon_90_data, of the conversions between its compact coordinates
   and points, of area and winding of Manhattan polygons, and of
   detail/iterator_geometry_to_set.hpp, with 32-bit coordinates and long long as
   area type. *)
From Verif Require Import Base Units Outcome Scan90Spec Poly90Spec.

(* point_concept.hpp get 110-120, set 122-134; orientation_2d::get_perpendicular *)
Definition perp (o : orient) : orient := match o with Horizontal => Vertical | Vertical => Horizontal end.
Definition pt_get (p : point) (o : orient) : Z := match o with Horizontal => px p | Vertical => py p end.
Definition pt_set (p : point) (o : orient) (v : Z) : point :=
  match o with Horizontal => mk_pt v (py p) | Vertical => mk_pt (px p) v end.
(* equivalence, 226-243; point_data operator==, point_data.hpp:98-101 *)
Definition pt_eqb (p q : point) : bool := (px p =? px q) && (py p =? py q).

(* iterator_compact_to_points.hpp:27-56, all points up to the end iterator. In
   [ctp_go] [rest] is what follows iter_: operator++ is called after the current
   point has been read; at the end it steps back once if x has not returned to
   firstX_. The constructor does not set y if there is only one coordinate, and
   is then already at the end. *)
Fixpoint ctp_go (firstX : Z) (pt : point) (o : orient) (rest : list Z) : list point :=
  pt :: match rest with
        | [] => if negb (px pt =? firstX) then [mk_pt firstX (py pt)] else []
        | c :: rest' => ctp_go firstX (pt_set pt o c) (perp o) rest'
        end.
Definition compact_to_points (l : list Z) : list point :=
  match l with
  | x :: y :: rest => ctp_go x (mk_pt x y) Horizontal rest
  | _ => []
  end.
(* iterator_points_to_compact.hpp:33-60 *)
Fixpoint ptc_go (o : orient) (l : list point) : list Z :=
  match l with [] => [] | p :: l' => pt_get p o :: ptc_go (perp o) l' end.
Definition points_to_compact (l : list point) : list Z := ptc_go Horizontal l.

(* point_sequence_area with long long, polygon_traits.hpp:956-999: one edge *)
Definition area_edge (y_base : Z) (a b : point) (area : Z) : outcome Z :=
  try dx <- chk64 (px b - px a);
  try h1 <- chk64 (py b - y_base);
  try h2 <- chk64 (py a - y_base);
  try h <- chk64 (h1 + h2);
  try p <- chk64 (dx * h);
  chk64 (area + Z.quot p 2).
Fixpoint area_loop (y_base : Z) (previous : point) (area : Z) (l : list point) : outcome (Z * point) :=
  match l with
  | [] => Ok (area, previous)
  | q :: l' =>
      try area' <- (if px previous =? px q then Ok area else area_edge y_base previous q area);
      area_loop y_base q area' l'
  end.
Definition points_area (l : list point) : outcome Z :=
  match l with
  | [] => Ok 0
  | first :: l' =>
      try ' (area, previous) <- area_loop (py first) first 0 l';
      if pt_eqb first previous then Ok area else area_edge (py first) previous first area
  end.
(* winding, 1101-1114, for polygon types whose winding is unknown_winding (all
   of the library): true is COUNTERCLOCKWISE *)
Definition points_ccw (l : list point) : outcome bool :=
  try a <- points_area l; Ok (a <? 0).

(* iterator_geometry_to_set<polygon_90_concept>, evaluate_, 176-189 *)
Definition evaluate (o : orient) (multiplier : Z) (p0 p1 p2 : point) : vertex :=
  let c :=
    if pt_eqb p1 p2 then 0
    else if negb (px p0 =? px p1) then -1
    else if negb (py p0 =? py p1) then 1
    else 0 in
  (pt_get p1 (perp o), (pt_get p1 o, c * multiplier)).
(* operator++ once itrb has reached the end, 138-148. [fuel] bounds the number
   of vertices still to come; None: not at the end *)
Fixpoint igs_tail (fuel : nat) (o : orient) (m : Z) (first second p0 p1 p2 : point) : option (list vertex) :=
  match fuel with
  | O => None
  | S fuel' =>
      do l <- (if pt_eqb first p1 then Some []
               else igs_tail fuel' o m first second p1 p2 (if pt_eqb first p2 then second else first));
      Some (evaluate o m p0 p1 p2 :: l)
  end.
(* operator++ before that, 149-162; [rest] is what follows itrb *)
Fixpoint igs_go (o : orient) (m : Z) (first second p0 p1 p2 : point) (rest : list point) : option (list vertex) :=
  do l <- match rest with
          | p3 :: rest' => igs_go o m first second p1 p2 p3 rest'
          | [] => igs_tail 3 o m first second p1 p2 (if pt_eqb first p2 then second else first)
          end;
  Some (evaluate o m p0 p1 p2 :: l).
(* the constructor, 97-119, for a polygon_90_data. size() is the number of
   coordinates (polygon_90_data.hpp:72). *)
Definition ring_vertices (o : orient) (is_hole : bool) (l : list Z) : outcome (list vertex) :=
  let ps := compact_to_points l in
  if match ps with [] => true | _ => false end || (length l <? 4)%nat then Ok []
  else
    try ccw <- points_ccw ps;
    let m := if ccw then 1 else -1 in
    let m := if is_hole then m * -1 else m in
    match ps with
    | p0 :: p1 :: p2 :: rest => lift (igs_go o m p0 p1 p0 p1 p2 rest)
    | _ => Undefined
    end.

(* iterator_geometry_to_set<polygon_90_with_holes_concept>, 192-308: the
   vertices of the outer ring, then of the holes as holes. When a ring without
   vertices (fewer than four coordinates) is not the last one the iterator is
   dereferenced once while it points at no vertex, and yields the value
   initialised vertex of an end iterator. *)
Fixpoint chain_vertices (vs : list (list vertex)) : list vertex :=
  match vs with
  | [] => []
  | v :: vs' =>
      match v, vs' with
      | [], [] => []
      | [], _ => (0, (0, 0)) :: chain_vertices vs'
      | _, _ => v ++ chain_vertices vs'
      end
  end.
Fixpoint map_outcome {A B : Type} (f : A -> outcome B) (l : list A) : outcome (list B) :=
  match l with
  | [] => Ok []
  | a :: l' => try b <- f a; try bs <- map_outcome f l'; Ok (b :: bs)
  end.
Definition poly_vertices (o : orient) (is_hole : bool) (p : poly90) : outcome (list vertex) :=
  try v <- ring_vertices o is_hole (p_outer p);
  try vs <- map_outcome (ring_vertices o (negb is_hole)) (p_holes p);
  Ok (chain_vertices (v :: vs)).
