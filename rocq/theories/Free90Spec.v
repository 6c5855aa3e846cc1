(* Specification of the free functions on Manhattan polygon sets. *)
From Verif Require Import Base Units Scan90Spec GeoSpec Poly90Spec PolySpec PolyFormSpec Set90Spec ResizeSpec.

(* N is the number of cells of the region: all of them lie in some box, and the
   sum over this box counts them *)
Definition cell_count (P : Z -> Z -> Prop) (N : Z) : Prop :=
  exists (f : Z -> Z -> Z) x n y m, (forall i j, (P i j -> f i j = 1) /\ (~ P i j -> f i j = 0)) /\
    (forall i j, P i j -> x <= i < x + Z.of_nat n /\ y <= j < y + Z.of_nat m) /\
    N = box_sum x n y m f.

(* the cells of a polygon *)
Definition poly_cells (p : poly90) (x y : Z) : Prop := poly_winding p x y = 1.

(* the property holds of two members of the list *)
Definition at_least_two {A : Type} (Q : A -> Prop) (l : list A) : Prop :=
  exists a p b q c, l = a ++ p :: b ++ q :: c /\ Q p /\ Q q.

(* the least box around the points: it contains them, and each side goes through
   one of them *)
Definition spans (l : list point) (r : rect) : Prop :=
  (forall p, In p l -> xl r <= px p <= xh r /\ yl r <= py p <= yh r) /\
  (exists p, In p l /\ px p = xl r) /\ (exists p, In p l /\ px p = xh r) /\
  (exists p, In p l /\ py p = yl r) /\ (exists p, In p l /\ py p = yh r).

(* the criteria of keep *)
Record limits : Type := mk_limits {
  min_area : Z; max_area : Z; min_width : Z; max_width : Z; min_height : Z; max_height : Z }.
(* the number of cells and the sides of the box around the polygon are within the
   limits; the lower limits of the sides are exclusive *)
Definition within (lim : limits) (p : poly90) : Prop :=
  exists box N, spans (ring_points (p_outer p)) box /\ cell_count (poly_cells p) N /\
    min_width lim < xh box - xl box <= max_width lim /\ min_height lim < yh box - yl box <= max_height lim /\
    min_area lim <= N <= max_area lim.
(* all limits are inclusive *)
Definition within_inclusive (lim : limits) (p : poly90) : Prop :=
  exists box N, spans (ring_points (p_outer p)) box /\ cell_count (poly_cells p) N /\
    min_width lim <= xh box - xl box <= max_width lim /\ min_height lim <= yh box - yl box <= max_height lim /\
    min_area lim <= N <= max_area lim.
