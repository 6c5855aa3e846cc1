(* What several sets of polygons cover, and which of them touch. *)
From Verif Require Import Base Units Poly90Spec GeoSpec PolySpec SnapSpec ArbSpec.
From Coq Require Import Reals Sorting.Sorted.

(* how often the polygons given with property k cover the plane just below (x, y):
   (polygon, (property, is_hole)); holes are subtracted *)
Definition calls_r (cs : list (gpoly * (Z * bool))) (k : Z) (x y : R) : Z :=
  zsum (fun c : gpoly * (Z * bool) => if fst (snd c) =? k then (if snd (snd c) then -1 else 1) * poly_r (g_outer (fst c)) (g_holes (fst c)) x y else 0) cs.
Definition calls_segs (cs : list (gpoly * (Z * bool))) : list seg := polys_segs (map fst cs).
(* 1 if the properties with positive depth are those of K, otherwise 0 *)
Definition exact (v : Z) (depth : Z -> Z) (K : list Z) : Prop := v = 1 /\ cover_list depth K \/ v = 0 /\ ~ cover_list depth K.
Definition axis_seg (s : seg) : Prop := px (s_low s) = px (s_high s) \/ py (s_low s) = py (s_high s).

Local Open Scope R_scope.
(* (x, y) lies in the closure of the points that are covered *)
Definition closure (D : R -> R -> Z) (x y : R) : Prop :=
  forall eps, 0 < eps -> exists x' y', Rabs (x' - x) < eps /\ Rabs (y' - y) < eps /\ (0 < D x' y')%Z.
(* two regions that overlap or touch, be it in one point *)
Definition touching (D D' : R -> R -> Z) : Prop := exists x y, closure D x y /\ closure D' x y.
(* no point of the edges in the open square of side length 2 d around the point *)
Definition clear_by (d : R) (l : list seg) (x y : R) : Prop :=
  forall e x' y', In e l -> on_r e x' y' -> ~ (Rabs (x' - x) < d /\ Rabs (y' - y) < d).
(* the set covers the point, or it has an edge less than d away in x and in y *)
Definition reaches (d : R) (a : list (seg * Z)) (x y : R) : Prop :=
  (0 < depth_below (as_set a) 0 x y)%Z \/ exists e x' y', In e (map fst a) /\ on_r e x' y' /\ Rabs (x' - x) < d /\ Rabs (y' - y) < d.
