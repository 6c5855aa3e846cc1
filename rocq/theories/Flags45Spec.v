(* When the marks of a set of 45-degree polygons are right. *)
From Verif Require Import Base Units Scan90Spec Poly90Spec ArbSpec Ins45Spec Bool45Spec.
From Coq Require Import Reals.

(* the vertices bound regions; a set marked as rectilinear has no diagonals, one that is not
   marked as unsorted is in order, one that is not marked as dirty covers nothing twice *)
Definition marks_right (l : list v45) (rectilinear dirty unsorted : bool) : Prop :=
  boundary45 l /\ (rectilinear = true -> rectilinear45 l) /\ (unsorted = false -> in_order l) /\
  (dirty = false -> forall x y, depth45 l x y = 0 \/ depth45 l x y = 1).
