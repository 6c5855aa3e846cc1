(* 32-bit coordinates, orientations and points. *)
From Verif Require Import Base.

Inductive orient : Type := Horizontal | Vertical.
Definition orient_eqb (a b : orient) : bool :=
  match a, b with Horizontal, Horizontal | Vertical, Vertical => true | _, _ => false end.

(* 32-bit coordinates *)
Definition INT_MIN : Z := -2147483648.
Definition INT_MAX : Z := 2147483647.
Definition is_int (z : Z) : Prop := INT_MIN <= z <= INT_MAX.

Record point : Type := mk_pt { px : Z; py : Z }.
Definition pt_int (p : point) : Prop := is_int (px p) /\ is_int (py p).
