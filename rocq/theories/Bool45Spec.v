(* What boolean operations on sets of 45-degree polygons must compute, and which sets they
   work on. *)
From Verif Require Import Base Units Scan90Spec Poly90Spec ArbSpec Ins45Spec.
From Coq Require Import Reals Sorting.Sorted.

(* the operations of two sets, and of the counts of one set *)
Inductive op45 : Type := Or45 | And45 | Not45 | Xor45.
Definition op_covers (o : op45) (a b : bool) : bool :=
  match o with Or45 => a || b | And45 => a && b | Not45 => a && negb b | Xor45 => xorb a b end.
Inductive self45 : Type := SelfOr45 | SelfAnd45 | SelfXor45.
(* covered at all; more than once; an odd number of times *)
Definition self_covers (o : self45) (n : Z) : bool :=
  match o with SelfOr45 => 0 <? n | SelfAnd45 => 1 <? n | SelfXor45 => Z.odd n end.

(* the count of the edges of slope r *)
Definition slope_count (v : v45) (r : Z) : Z :=
  if r =? -1 then v_down v else if r =? 0 then v_flat v else if r =? 1 then v_up v else 0.
(* all counts of slope r on the line y = r x + b *)
Definition line_total (r b : Z) (l : list v45) : Z :=
  tot (fun v => if py (v_pt v) =? r * px (v_pt v) + b then slope_count v r else 0) l.
(* all counts of vertical edges at x *)
Definition column_total (x : Z) (l : list v45) : Z := tot (fun v => if px (v_pt v) =? x then v_vert v else 0) l.
(* the vertices bound bounded regions: they are balanced, and every edge that begins ends *)
Definition boundary45 (l : list v45) : Prop :=
  Forall balanced l /\ (forall r b, -1 <= r <= 1 -> line_total r b l = 0) /\ forall x, column_total x l = 0.

(* the order of the vertices by their points *)
Definition pt_lt (p q : point) : Prop := px p < px q \/ px p = px q /\ py p < py q.
Definition pt_le (p q : point) : Prop := pt_lt p q \/ p = q.
Definition in_order (l : list v45) : Prop := StronglySorted (fun v w => pt_le (v_pt v) (v_pt w)) l.
Definition strictly_in_order (l : list v45) : Prop := StronglySorted (fun v w => pt_lt (v_pt v) (v_pt w)) l.
(* the plane just below (x, y) and to the right of x is covered *)
Definition covered45 (l : list v45) (x y : R) : bool := 0 <? depth45 l x y.
(* no diagonal edges *)
Definition rectilinear45 (l : list v45) : Prop := Forall axis_vertex l.
