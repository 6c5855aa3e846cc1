(* What the vertices of a set of 45-degree polygons say about the plane. *)
From Verif Require Import Base Units Scan90Spec Poly90Spec GeoSpec PolySpec Set90Spec ArbSpec.
From Coq Require Import Reals.

(* A vertex with the counts of the edges that begin there and go to the right: down
   (slope -1), horizontal, up (slope 1), and of the vertical edges that go up. A count is
   negative for an edge that comes from the left, or from below, and ends there. *)
Record v45 : Type := mk_v45 { v_pt : point; v_down : Z; v_flat : Z; v_up : Z; v_vert : Z }.

Local Open Scope R_scope.
(* the line through p of slope r runs below (x, y) *)
Definition line_below (r : R) (p : point) (x y : R) : bool := rltb (IZR (py p) + r * (x - IZR (px p))) y.
(* how often the plane just below (x, y) is covered: the counts of all half lines below,
   as they are at x and just to the right of it *)
Definition v45_depth (v : v45) (x y : R) : Z :=
  if rleb (IZR (px (v_pt v))) x
  then ((if line_below (-1) (v_pt v) x y then v_down v else 0) +
        (if line_below 0 (v_pt v) x y then v_flat v else 0) +
        (if line_below 1 (v_pt v) x y then v_up v else 0))%Z
  else 0%Z.
Definition depth45 (l : list v45) (x y : R) : Z := tot (fun v => v45_depth v x y) l.
Local Close Scope R_scope.

(* the edges that come to a vertex and those that leave it make up a boundary: going
   around the vertex, the changes add up to 0 *)
Definition balanced (v : v45) : Prop := v_vert v = v_down v + v_flat v + v_up v.
(* no edges of slope 1 and -1 *)
Definition axis_vertex (v : v45) : Prop := v_down v = 0 /\ v_up v = 0.
(* the middle of the unit interval from x to x + 1 *)
Definition cell_mid (x : Z) : R := (IZR x + / 2)%R.
(* what a set must satisfy: its vertices are balanced, and if it is marked as rectilinear
   there are no diagonal edges *)
Definition valid45 (l : list v45) (rectilinear_flag : bool) : Prop :=
  Forall balanced l /\ (rectilinear_flag = true -> Forall axis_vertex l).
(* a rectangle covers the plane just below (x, y) and to the right of x *)
Definition in_rect_r (r : rect) (x y : R) : bool :=
  rleb (IZR (xl r)) x && rltb x (IZR (xh r)) && rltb (IZR (yl r)) y && rleb y (IZR (yh r)).
Definition hole_sign (hole : bool) : Z := if hole then -1 else 1.
