(* What polygons say about the set of edges that they are formed from. *)
From Verif Require Import Base Units Poly90Spec GeoSpec PolySpec SnapSpec ArbSpec.
From Coq Require Import Reals.

(* the steps from a vertex to the next one *)
Fixpoint path_edges (l : list point) : list (point * point) :=
  match l with
  | a :: (b :: _) as l' => (a, b) :: path_edges l'
  | _ => []
  end.
(* the last vertex of the ring is the first one again *)
Definition closed_ring (l : list point) : Prop := exists p m, l = p :: m ++ [p].
(* all steps along the rings *)
Definition ring_steps (gs : list gpoly) : list (point * point) := flat_map path_edges (flat_map rings gs).
(* An edge with its count as a step that has the covered side on its left: 1 says that
   the plane is covered above the edge, or on the right of a vertical edge. *)
Definition directed (e : seg * Z) : point * point :=
  if xorb (vertical_edge (fst e)) (snd e =? 1)%Z then (s_low (fst e), s_high (fst e)) else (s_high (fst e), s_low (fst e)).
(* how often all rings together wind around the points just below (x, y) *)
Definition rings_winding (gs : list gpoly) (x y : R) : Z := zsum (fun l => winding_r l x y) (flat_map rings gs).
