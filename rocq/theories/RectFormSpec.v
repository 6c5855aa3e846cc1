(* Specification of the decomposition of a Manhattan region into rectangles. *)
From Verif Require Import Base Scan90Spec Set90Spec.

(* a rectangle with positive width and height *)
Definition solid (r : rect) : Prop := xl r < xh r /\ yl r < yh r.

(* number of rectangles of the list that cover the cell (x,y) *)
Fixpoint cover_count (l : list rect) (x y : Z) : Z :=
  match l with [] => 0 | r :: l' => b2z (in_rect r x y) + cover_count l' x y end.

(* no cell belongs to two rectangles of the list *)
Definition disjoint (r s : rect) : Prop := forall x y, ~ (in_rect r x y = true /\ in_rect s x y = true).
Definition tiles (l : list rect) (P : Z -> Z -> Prop) : Prop :=
  Forall solid l /\ ForallOrdPairs disjoint l /\
  forall x y, P x y <-> exists r, In r l /\ in_rect r x y = true.

(* the cells (x,l) .. (x,h-1) form a maximal run of P on the vertical line x *)
Definition vrun (P : Z -> Z -> Prop) (x l h : Z) : Prop :=
  l < h /\ (forall y, l <= y < h -> P x y) /\ ~ P x (l - 1) /\ ~ P x h.
(* a rectangle of the vertical slicing: a maximal run that stays the same from
   xl to xh, and neither on the line before nor on the line after *)
Definition vslab (P : Z -> Z -> Prop) (r : rect) : Prop :=
  xl r < xh r /\ (forall x, xl r <= x < xh r -> vrun P x (yl r) (yh r)) /\
  ~ vrun P (xl r - 1) (yl r) (yh r) /\ ~ vrun P (xh r) (yl r) (yh r).
(* the same with the axes exchanged *)
Definition rect_swap (r : rect) : rect := mk_rect (yl r) (yh r) (xl r) (xh r).
Definition slab (o : orient) (P : Z -> Z -> Prop) (r : rect) : Prop :=
  match o with
  | Vertical => vslab P r
  | Horizontal => vslab (fun x y => P y x) (rect_swap r)
  end.

(* the decomposition of P for a slicing orientation *)
Definition decomposes (o : orient) (P : Z -> Z -> Prop) (l : list rect) : Prop :=
  tiles l P /\ NoDup l /\ forall r, In r l <-> slab o P r.
