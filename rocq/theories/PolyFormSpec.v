(* Specification of the polygons of a Manhattan region. *)
From Verif Require Import Base Units Scan90Spec Poly90Spec PolySpec.

(* a closed curve of axis-parallel edges of positive length that are horizontal
   and vertical in turn, all coordinates fit an int *)
Definition strict_ring (l : list Z) : Prop :=
  Forall is_int l /\ Nat.Even (length l) /\ (4 <= length l)%nat /\ no_zero_edge (ring_points l).
(* it goes once around the cells of some region, and around no other cell:
   counterclockwise, or clockwise *)
Definition ccw_ring (l : list Z) : Prop :=
  strict_ring l /\ forall x y, winding_number (ring_points l) x y = 0 \/ winding_number (ring_points l) x y = 1.
Definition cw_ring (l : list Z) : Prop :=
  strict_ring l /\ forall x y, winding_number (ring_points l) x y = 0 \/ winding_number (ring_points l) x y = -1.

(* the sum of the windings of the outer curve and of the holes *)
Definition poly_winding (p : poly90) (x y : Z) : Z :=
  winding_number (ring_points (p_outer p)) x y + zsum (fun h => winding_number (ring_points h) x y) (p_holes p).
(* a polygon with holes: the outer curve is counterclockwise, the holes are
   clockwise, lie inside the outer curve and do not overlap *)
Definition formed (p : poly90) : Prop :=
  ccw_ring (p_outer p) /\ Forall cw_ring (p_holes p) /\ forall x y, poly_winding p x y = 0 \/ poly_winding p x y = 1.

(* the number of polygons of the list that contain the cell (x,y) *)
Definition polys_winding (ps : list poly90) (x y : Z) : Z := zsum (fun p => poly_winding p x y) ps.
(* the polygons cover exactly P, and no cell twice *)
Definition forms (ps : list poly90) (P : Z -> Z -> Prop) : Prop :=
  Forall formed ps /\
  forall x y, (P x y -> polys_winding ps x y = 1) /\ (~ P x y -> polys_winding ps x y = 0).

(* the cells along the left side of an edge belong to P, those along its right
   side do not *)
Definition region_left (P : Z -> Z -> Prop) (e : point * point) : Prop :=
  let (p, q) := e in
  (px p = px q -> forall y, (py p <= y < py q -> P (px p - 1) y /\ ~ P (px p) y) /\ (py q <= y < py p -> P (px p) y /\ ~ P (px p - 1) y)) /\
  (py p = py q -> forall x, (px p <= x < px q -> P x (py p) /\ ~ P x (py p - 1)) /\ (px q <= x < px p -> P x (py p - 1) /\ ~ P x (py p))).
(* the pairs of consecutive edges of the closed curve *)
Definition corners (l : list point) : list ((point * point) * (point * point)) :=
  combine (cyc_edges l) (tl (cyc_edges l) ++ firstn 1 (cyc_edges l)).
(* of the four cells around the corner, the cell between the two edges or the
   cell opposite to it belongs to P: where two cells of P meet only in a point,
   the curve goes around one of them and does not pass between them *)
Definition corner_keeps (P : Z -> Z -> Prop) (c : (point * point) * (point * point)) : Prop :=
  let (p, q) := fst c in
  let r := snd (snd c) in
  let right := (px q <? px p) || (px q <? px r) in
  let up := (py q <? py p) || (py q <? py r) in
  P (if right then px q else px q - 1) (if up then py q else py q - 1) \/
  P (if right then px q - 1 else px q) (if up then py q - 1 else py q).
(* the curve is a piece of the boundary of P *)
Definition bounds (P : Z -> Z -> Prop) (l : list point) : Prop :=
  Forall (region_left P) (cyc_edges l) /\ Forall (corner_keeps P) (corners l).
