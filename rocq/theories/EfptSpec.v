(* Specification for the floating point numbers with an extended exponent. *)
From Coq Require Import Reals ZArith.
From Flocq Require Import Core.
Local Open Scope R_scope.

(* the number m * 2^e *)
Definition scaled (m : R) (e : Z) : R := m * bpow radix2 e.
(* as accurate as one rounding of a double whose exponent cannot overflow *)
Definition near (v exact : R) : Prop := Rabs (v - exact) <= bpow radix2 (-53) * Rabs exact.
(* the sign is the one of the exact result *)
Definition sign_as (v exact : R) : Prop := (0 < v <-> 0 < exact) /\ (v < 0 <-> exact < 0) /\ (v = 0 <-> exact = 0).
(* the nearest number of 53 binary digits, the exponent unbounded; to even on ties *)
Definition nearest (x : R) : R := round radix2 (FLX_exp 53) ZnearestE x.
