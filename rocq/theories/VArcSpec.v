(* Specification of the arcs of the beach line of the Voronoi sweep. *)
From Coq Require Import Reals ZArith.
From Verif Require Import Base Units Outcome Scan90Spec Set90Spec GeoSpec Poly90Model VorSpec VCircleSpec.
Open Scope R_scope.

(* The sweep line is x = X. At the height y, the arc of a site is at (X + d, y)
   if that place is as far from the site as from the sweep line. A site is a point
   (p, p) or a directed segment (p, q), whose arc is to its right: there the
   distance to the line through it counts as positive, on the left as negative. *)
Definition point_arc (p : point) (X y d : R) : Prop := d < 0 /\ rlen (rsub (mk_rpt (X + d) y) (of_pt p)) = - d.
Definition segment_arc (p q : point) (X y d : R) : Prop :=
  rcross (rsub (of_pt q) (of_pt p)) (rsub (mk_rpt (X + d) y) (of_pt p)) = d * rlen (rsub (of_pt q) (of_pt p)).
Definition arc (p q : point) (X y d : R) : Prop := (p = q /\ point_arc p X y d) \/ (p <> q /\ segment_arc p q X y d).
(* sites whose arc is a graph over the heights: points before the sweep line, and
   segments that do not point straight down *)
Definition has_arc (p q : point) (X : R) : Prop :=
  (p = q -> IZR (px p) < X) /\ (p <> q -> px p = px q -> (py p < py q)%Z /\ IZR (px p) < X).
(* at the height b the beach line goes over from the arc of the lower site (pl, ql)
   to the arc of the upper site (pr, qr): the arcs meet, just below b the first is
   nearer to the sweep line, just above b the second *)
Definition breakpoint (pl ql pr qr : point) (X b : R) : Prop :=
  (forall d e, arc pl ql X b d -> arc pr qr X b e -> d = e) /\
  exists eps, 0 < eps /\
    (forall y d e, b < y < b + eps -> arc pl ql X y d -> arc pr qr X y e -> d < e) /\
    (forall y d e, b - eps < y < b -> arc pl ql X y d -> arc pr qr X y e -> e < d).
