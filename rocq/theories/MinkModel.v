(* Model of detail/minkowski.hpp, 10-87. Coordinates are unbounded here; the sums are
   ints if the resulting polygons fit, see C63. The figures are inserted one after the
   other into the result, so the model gives the list of the figures; their insertion
   is insert_polygons of ArbSetModel.v. *)
From Verif Require Import Base Units Outcome GeoSpec PolySpec ArbSpec ArbSetModel ArbFormModel.

(* convolve of points, point_concept.hpp:336-353 *)
Definition pt_convolve (p q : point) : point := mk_pt (px p + px q) (py p + py q).
(* convolve of a polygon with holes with a point, polygon_traits.hpp:604-637 *)
Definition ring_convolve (l : list point) (p : point) : list point := map (fun q => pt_convolve q p) l.
Definition poly_convolve (g : gpoly) (p : point) : gpoly :=
  mk_gpoly (ring_convolve (g_outer g) p) (map (fun h => ring_convolve h p) (g_holes g)).
(* convolve_two_segments, 17-27 *)
Definition convolve_two_segments (a b : point * point) : list point :=
  [pt_convolve (fst a) (snd b); pt_convolve (fst a) (fst b); pt_convolve (snd a) (fst b); pt_convolve (snd a) (snd b)].
(* the inner loop of convolve_two_point_sequences, 42-48, for one edge of the first
   sequence *)
Fixpoint inner_loop (ea : point * point) (prev_b : point) (b : list point) : list gpoly :=
  match b with
  | [] => []
  | q :: b' => mk_gpoly (convolve_two_segments (prev_b, q) ea) [] :: inner_loop ea q b'
  end.
(* the outer loop, 37-50 *)
Fixpoint outer_loop (prev_a : point) (a : list point) (b0 : point) (b : list point) : list gpoly :=
  match a with
  | [] => []
  | p :: a' => inner_loop (prev_a, p) b0 b ++ outer_loop p a' b0 b
  end.
(* convolve_two_point_sequences, 29-51 *)
Definition convolve_two_point_sequences (a b : list point) : list gpoly :=
  match a, b with
  | p :: a', q :: b' => outer_loop p a' q b'
  | _, _ => []
  end.
(* convolve_point_sequence_with_polygons, 53-62 *)
Definition convolve_point_sequence_with_polygons (a : list point) (polygons : list gpoly) : list gpoly :=
  flat_map (fun g => convolve_two_point_sequences a (g_outer g) ++ flat_map (convolve_two_point_sequences a) (g_holes g)) polygons.
(* the loop 79-84; the first point of a polygon without points is undefined *)
Fixpoint shifted (g : gpoly) (hs : list gpoly) : outcome (list gpoly) :=
  match hs with
  | [] => Ok []
  | h :: hs' =>
      match g_outer g, g_outer h with
      | a0 :: _, b0 :: _ => try r <- shifted g hs'; Ok (poly_convolve g b0 :: poly_convolve h a0 :: r)
      | _, _ => Undefined
      end
  end.
(* the loop 70-85 *)
Fixpoint convolve_polygons (gs hs : list gpoly) : outcome (list gpoly) :=
  match gs with
  | [] => Ok []
  | g :: gs' =>
      try s <- shifted g hs;
      try r <- convolve_polygons gs' hs;
      Ok (convolve_point_sequence_with_polygons (g_outer g) hs ++
          flat_map (fun h => convolve_point_sequence_with_polygons h hs) (g_holes g) ++ s ++ r)
  end.
(* convolve_two_polygon_sets, 64-86; [w] is the precision of long double, see PolyModel.v *)
Definition convolve_two_polygon_sets (w : Z) (a b : list (seg * Z)) : outcome (list (seg * Z)) :=
  try gs <- get_polygons a;
  try hs <- get_polygons b;
  try fs <- convolve_polygons gs hs;
  insert_polygons w fs.
