(* Specification of the maximal rectangles of a Manhattan region. *)
From Verif Require Import Base Scan90Spec Set90Spec RectFormSpec.

(* every cell of the rectangle belongs to P *)
Definition inside (P : Z -> Z -> Prop) (r : rect) : Prop := forall x y, in_rect r x y = true -> P x y.
(* r lies in P and no other rectangle in P contains it *)
Definition maximal (P : Z -> Z -> Prop) (r : rect) : Prop :=
  solid r /\ inside P r /\
  forall q, solid q -> inside P q -> (forall x y, in_rect r x y = true -> in_rect q x y = true) -> q = r.
