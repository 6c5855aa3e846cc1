(* Specification of growing and shrinking a Manhattan region. *)
From Verif Require Import Base.

(* the cells within the given distances of the region: the Minkowski sum of the
   region with the rectangle [-w,e] x [-s,n] *)
Definition grown (w e s n : Z) (P : Z -> Z -> Prop) (x y : Z) : Prop :=
  exists a b, P a b /\ a - w <= x <= a + e /\ b - s <= y <= b + n.
(* the cells around which the rectangle [-w,e] x [-s,n] lies in the region *)
Definition shrunk (w e s n : Z) (P : Z -> Z -> Prop) (x y : Z) : Prop :=
  forall a b, x - w <= a <= x + e -> y - s <= b <= y + n -> P a b.
(* amounts of any sign: an axis with a non-negative total grows, one with a
   negative total shrinks; if the axes differ, shrinking comes first *)
Definition resized (w e s n : Z) (P : Z -> Z -> Prop) : Z -> Z -> Prop :=
  if 0 <=? w + e then
    if 0 <=? s + n then grown w e s n P else grown w e 0 0 (shrunk 0 0 (- s) (- n) P)
  else
    if 0 <=? s + n then grown 0 0 s n (shrunk (- w) (- e) 0 0 P) else shrunk (- w) (- e) (- s) (- n) P.
