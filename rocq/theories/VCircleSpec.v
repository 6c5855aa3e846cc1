(* Specification of circle events of the Voronoi sweep. *)
From Coq Require Import Reals ZArith.
From Verif Require Import Base Units Outcome Scan90Spec Set90Spec GeoSpec Poly90Model VorSpec.
Open Scope R_scope.

(* points and vectors of the real plane *)
Record rpt : Type := mk_rpt { rx : R; ry : R }.
Definition of_pt (p : point) : rpt := mk_rpt (IZR (px p)) (IZR (py p)).
Definition rsub (p q : rpt) : rpt := mk_rpt (rx p - rx q) (ry p - ry q).
Definition rdot (u v : rpt) : R := rx u * rx v + ry u * ry v.
(* positive: v is to the left of u *)
Definition rcross (u v : rpt) : R := rx u * ry v - ry u * rx v.
Definition rlen (u : rpt) : R := sqrt (rdot u u).

(* the point t of the circle around c with radius r is the point p *)
Definition meets_point (p : point) (c : rpt) (r : R) (t : rpt) : Prop :=
  t = of_pt p /\ rlen (rsub c t) = r.
(* the circle around c with radius r touches at t the line from p to q, and its
   centre is to the right of that line *)
Definition meets_segment (p q : point) (c : rpt) (r : R) (t : rpt) : Prop :=
  of_pt p <> of_pt q /\
  rcross (rsub (of_pt q) (of_pt p)) (rsub t (of_pt p)) = 0 /\
  rdot (rsub (of_pt q) (of_pt p)) (rsub c t) = 0 /\
  rlen (rsub c t) = r /\
  rcross (rsub (of_pt q) (of_pt p)) (rsub c (of_pt p)) < 0.
(* t1, t2, t3 are in clockwise order *)
Definition clockwise (t1 t2 t3 : rpt) : Prop := rcross (rsub t2 t1) (rsub t3 t1) < 0.

(* a circle event: the centre and the abscissa of the rightmost point *)
Record cevent : Type := mk_cevent { ev_x : R; ev_y : R; ev_low : R }.
Definition event_of (c : rpt) (r : R) : cevent := mk_cevent (rx c) (ry c) (rx c + r).

(* the points t1, t2, t3 where the circle meets three sites, each a point (p, p)
   or a directed segment (p, q), are in clockwise order *)
Definition meets (p q : point) (c : rpt) (r : R) (t : rpt) : Prop :=
  (p = q /\ meets_point p c r t) \/ (p <> q /\ meets_segment p q c r t).
(* a value of a circle event that is computed again, or kept *)
Definition refreshed (f : bool) (old new v : R) : Prop := if f then new = v else new = old \/ new = v.

(* ---------- circles that touch three sites ---------- *)
(* t lies between p and q *)
Definition between (p q : point) (t : rpt) : Prop :=
  exists k, 0 <= k <= 1 /\ rx t = IZR (px p) + k * (IZR (px q) - IZR (px p)) /\ ry t = IZR (py p) + k * (IZR (py q) - IZR (py p)).
(* the circle touches the site itself, not only the line through it *)
Definition touches (p q : point) (c : rpt) (r : R) (t : rpt) : Prop := meets p q c r t /\ between p q t.
(* who walks along the circle clockwise, starting at its rightmost point, passes
   t1, t2 and t3 in that order *)
Definition from_right (c : rpt) (r : R) (t1 t2 t3 : rpt) : Prop :=
  clockwise t1 t2 t3 /\ (t1 = mk_rpt (rx c + r) (ry c) \/ clockwise t3 (mk_rpt (rx c + r) (ry c)) t1).
(* lexicographic order of points *)
Definition pt_less (p q : point) : Prop := (px p < px q)%Z \/ (px p = px q /\ (py p < py q)%Z).
(* the flag of a directed segment tells whether it runs against the order *)
Definition flagged (p q : point) (inv : bool) : Prop := p <> q -> if inv then pt_less q p else pt_less p q.
(* two sites with one index are one segment, possibly in opposite directions *)
Definition one_segment (p q p' q' : point) : Prop := (p = p' /\ q = q') \/ (p = q' /\ q = p').
