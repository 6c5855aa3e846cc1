(* Specification vocabulary for big integers made of 32-bit chunks. *)
From Verif Require Import Base Set90Spec.

Definition W : Z := 2 ^ 32.
(* the number with the given base-2^32 digits, least significant first *)
Fixpoint value (l : list Z) : Z :=
  match l with [] => 0 | d :: l' => d + W * value l' end.
Definition digits (l : list Z) : Prop := Forall (fun d => 0 <= d < W) l.
(* the top digit, if any, is not zero *)
Definition canonical (l : list Z) : Prop := l = [] \/ last l 0 <> 0.

(* An extended_int object (voronoi_ctypes.hpp:226): the count, whose sign is the
   sign of the number, and the |count| chunks in use. *)
Record xint : Type := mk_x { x_count : Z; x_chunks : list Z }.
Definition x_value (x : xint) : Z := Z.sgn (x_count x) * value (x_chunks x).
(* the invariant of the representation with capacity N, and canonical values *)
Definition x_wf (N : nat) (x : xint) : Prop :=
  Z.abs (x_count x) = Z.of_nat (length (x_chunks x)) /\ (length (x_chunks x) <= N)%nat /\ digits (x_chunks x).
Definition x_canonical (x : xint) : Prop := canonical (x_chunks x).
Definition is_int64 (z : Z) : Prop := - 2 ^ 63 <= z < 2 ^ 63.

(* integer expressions over int and int64 constants, and their mathematical value *)
Inductive expr : Type :=
| Lit32 (z : Z) | Lit64 (z : Z) | Neg (e : expr)
| Add (e f : expr) | Sub (e f : expr) | Mul (e f : expr).
Fixpoint meaning (e : expr) : Z :=
  match e with
  | Lit32 z | Lit64 z => z
  | Neg e => - meaning e
  | Add e f => meaning e + meaning f
  | Sub e f => meaning e - meaning f
  | Mul e f => meaning e * meaning f
  end.
(* v = a + b does not cancel more than 32 leading bits *)
Definition no_loss (a b v : Z) : Prop :=
  v = 0 \/ 0 <= a * b \/ Z.max (Z.abs a) (Z.abs b) < W * W \/ Z.max (Z.abs a) (Z.abs b) <= W * Z.abs v.
(* every constant, and every intermediate result in N chunks, is representable,
   and no sum cancels too much *)
Fixpoint fits (N : nat) (e : expr) : Prop :=
  match e with
  | Lit32 z => is_int z /\ z <> INT_MIN
  | Lit64 z => is_int64 z /\ z <> - 2 ^ 63
  | Neg e => fits N e
  | Add e f => fits N e /\ fits N f /\ Z.abs (meaning e + meaning f) < W ^ Z.of_nat N /\ no_loss (meaning e) (meaning f) (meaning e + meaning f)
  | Sub e f => fits N e /\ fits N f /\ Z.abs (meaning e - meaning f) < W ^ Z.of_nat N /\ no_loss (meaning e) (- meaning f) (meaning e - meaning f)
  | Mul e f => fits N e /\ fits N f /\ Z.abs (meaning e * meaning f) < W ^ Z.of_nat N
  end.
