(* Specification of the beach line of the Voronoi sweep at a site event. *)
From Coq Require Import Reals ZArith List.
From Verif Require Import Base Units Outcome Scan90Spec Set90Spec GeoSpec Poly90Model VorSpec VDModel VCircleSpec VArcSpec.
Open Scope R_scope.

(* where the sweep meets a site first and where it leaves it *)
Definition start (s : sev) : point := if e_inv s then e_p1 s else e_p0 s.
Definition finish (s : sev) : point := if e_inv s then e_p0 s else e_p1 s.
Definition is_point (s : sev) : Prop := e_p0 s = e_p1 s.
Definition inverse_flag (s : sev) : Prop := flagged (e_p0 s) (e_p1 s) (e_inv s).
(* s' is the other side of the segment s *)
Definition other_side (s s' : sev) : Prop := e_p0 s' = e_p1 s /\ e_p1 s' = e_p0 s /\ e_sorted s' = e_sorted s /\ e_inv s' = negb (e_inv s).

(* [seen_at X l r h]: on the sweep line x = X the lower site l gives way to the
   upper site r at the height h. *)
Inductive seen_at (X : Z) : sev -> sev -> R -> Prop :=
(* the arcs of two sites that started before *)
| seen_arcs : forall l r h, (px (start l) < X)%Z -> (px (start r) < X)%Z -> e_sorted l <> e_sorted r ->
    has_arc (e_p0 l) (e_p1 l) (IZR X) -> has_arc (e_p0 r) (e_p1 r) (IZR X) ->
    breakpoint (e_p0 l) (e_p1 l) (e_p0 r) (e_p1 r) (IZR X) h -> seen_at X l r h
(* the two sides of a segment that started before, up to the place where the sweep
   line cuts it *)
| seen_sides : forall l r h, (px (start l) < X)%Z -> e_inv l = false -> ~ is_point l -> other_side l r -> px (e_p0 l) <> px (e_p1 l) ->
    rcross (rsub (of_pt (e_p1 l)) (of_pt (e_p0 l))) (rsub (mk_rpt (IZR X) h) (of_pt (e_p0 l))) = 0 -> seen_at X l r h
(* sites that start on the sweep line: no arc yet, only the place itself *)
| seen_below_new : forall l r, (e_sorted l < e_sorted r)%nat -> px (start r) = X -> (px (start l) <= X)%Z -> e_inv r = false ->
    seen_at X l r (IZR (py (start r)))
| seen_above_new : forall l r, (e_sorted r < e_sorted l)%nat -> px (start l) = X -> (px (start r) <= X)%Z -> (~ is_point l -> e_inv l = true) ->
    seen_at X l r (IZR (py (if (px (finish l) =? X)%Z then finish l else start l)))
| seen_sides_new : forall l r, px (start l) = X -> e_inv l = false -> ~ is_point l -> other_side l r ->
    seen_at X l r (IZR (py (start l))).
