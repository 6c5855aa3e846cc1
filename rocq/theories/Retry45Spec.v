(* The small squares around crossings beside the grid, in doubled coordinates. *)
From Verif Require Import Base Units Poly90Spec GeoSpec Set90Spec Ins45Spec Adapt45Spec.

Definition odd_point (p : point) : Prop := Z.odd (px p) = true /\ Z.odd (py p) = true.
Definition even_point (p : point) : Prop := Z.even (px p) = true /\ Z.even (py p) = true.
(* the square of size 2 around p: one unit in the original coordinates *)
Definition box (p : point) : rect := mk_rect (px p - 1) (px p + 1) (py p - 1) (py p + 1).
(* the corners of a closed ring p0, p1, ..., p(n-1), each with the points before and after *)
Fixpoint triples (l : list point) : list (point * point * point) :=
  match l with
  | a :: ((b :: c :: _) as t) => (a, b, c) :: triples t
  | _ => []
  end.
Definition ring_corners (p0 p1 : point) (l : list point) : list (point * point * point) := triples (p0 :: p1 :: l ++ [p0; p1]).
Definition turns_left (c : point * point * point) : bool :=
  let '(a, b, d) := c in 0 <? (px b - px a) * (py d - py a) - (py b - py a) * (px d - px a).
Definition beside_grid (c : point * point * point) : bool := let '(_, b, _) := c in Z.odd (px b).
Definition middle (c : point * point * point) : point := let '(_, b, _) := c in b.
(* a ring that repeats its first point at the end *)
Definition closed_ring (l : list point) : Prop := exists p0 p1 m, l = p0 :: p1 :: m ++ [p0].
Definition corners_of (l : list point) : list (point * point * point) :=
  match l with p0 :: p1 :: m => ring_corners p0 p1 (removelast m) | _ => [] end.
Definition side_corners (rings : list (list point)) : list (point * point * point) := filter beside_grid (flat_map corners_of rings).
(* The rings have a corner at every vertex of the doubled set r where both coordinates are
   odd, only there is the first one odd, and where rings meet at such a point they all turn
   the same way: the crossing of two diagonals has one, two opposite or three quadrants
   covered. *)
Definition rings_fit (r : list v45) (rings : list (list point)) : Prop :=
  Forall closed_ring rings /\
  (forall c, In c (side_corners rings) -> odd_point (middle c)) /\
  (forall v, In v r -> has_counts v -> odd_point (v_pt v) -> exists c, In c (side_corners rings) /\ middle c = v_pt v) /\
  (forall c d, In c (side_corners rings) -> In d (side_corners rings) -> middle c = middle d -> turns_left c = turns_left d).
