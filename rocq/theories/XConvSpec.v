(* Specification for the conversion of big integers to floating point numbers. *)
From Coq Require Import Reals ZArith.
From Flocq Require Import Core.
Local Open Scope R_scope.

(* at most three roundings away from the integer *)
Definition close3 (v : R) (z : Z) : Prop := Rabs (v - IZR z) <= 3 * bpow radix2 (-53) * Rabs (IZR z).
