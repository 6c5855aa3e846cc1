(* Specification of the Minkowski sum of polygons with holes. *)
From Verif Require Import Base Units Poly90Spec GeoSpec PolySpec SnapSpec ArbSpec ArbFormSpec.
From Coq Require Import Reals.
Local Open Scope R_scope.

(* on the edges of the polygon *)
Definition on_edges (g : gpoly) (x y : R) : Prop := exists l e, In l (rings g) /\ In e (cyc_edges l) /\ on_r (mk_seg (fst e) (snd e)) x y.
(* inside: off the edges, the winding number is 1 for the outer curve with the holes
   taken away *)
Definition poly_inside (g : gpoly) (x y : R) : Prop := ~ on_edges g x y /\ poly_r (g_outer g) (g_holes g) x y = 1%Z.
(* the inside with what it comes close to *)
Definition region (g : gpoly) (x y : R) : Prop :=
  forall d, 0 < d -> exists x' y', Rabs (x' - x) < d /\ Rabs (y' - y) < d /\ poly_inside g x' y'.
(* sums of a place of one of the polygons gs and a place of one of hs *)
Definition minkowski_sum (gs hs : list gpoly) (x y : R) : Prop :=
  exists g h x1 y1 x2 y2, In g gs /\ In h hs /\ region g x1 y1 /\ region h x2 y2 /\ x = x1 + x2 /\ y = y1 + y2.
(* The curves of the polygon repeat their first vertex, go around each place off the
   edges once or not at all; so do, together, the outer curve and the holes; the inside
   comes close to each place of the curves. *)
Definition simple_polygon (g : gpoly) : Prop :=
  (forall l, In l (rings g) -> closed_ring l) /\
  (forall l x y, In l (rings g) -> ~ on_edges g x y -> oriented_r l x y = 0%Z \/ oriented_r l x y = 1%Z) /\
  (forall x y, ~ on_edges g x y -> poly_r (g_outer g) (g_holes g) x y = 0%Z \/ poly_r (g_outer g) (g_holes g) x y = 1%Z) /\
  (forall x y, on_edges g x y -> region g x y).
