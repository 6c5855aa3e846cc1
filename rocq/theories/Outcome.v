(* Outcomes of C++ code with checked signed arithmetic. *)
From Verif Require Import Base Units.

(* outcomes of an operation: a result, signed overflow of a coordinate, or any
   other undefined behaviour *)
Inductive outcome (A : Type) : Type := Ok (a : A) | Overflow | Undefined.
Arguments Ok {A}. Arguments Overflow {A}. Arguments Undefined {A}.
Definition obind {A B : Type} (o : outcome A) (f : A -> outcome B) : outcome B :=
  match o with Ok a => f a | Overflow => Overflow | Undefined => Undefined end.
Notation "'try' x <- e1 ; e2" := (obind e1 (fun x => e2))
  (at level 200, x name, e1 at level 100, e2 at level 200).
Notation "'try' ' p <- e1 ; e2" := (obind e1 (fun p => e2))
  (at level 200, p strict pattern, e1 at level 100, e2 at level 200).
Definition lift {A : Type} (o : option A) : outcome A :=
  match o with Some a => Ok a | None => Undefined end.
(* an int result of signed arithmetic *)
Definition chk (z : Z) : outcome Z :=
  if (INT_MIN <=? z) && (z <=? INT_MAX) then Ok z else Overflow.
(* a long long result of signed arithmetic *)
Definition chk64 (z : Z) : outcome Z :=
  if (- 2 ^ 63 <=? z) && (z <? 2 ^ 63) then Ok z else Overflow.
