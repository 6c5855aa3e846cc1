(* Model of the conversion of extended_int<N> to floating point numbers,
   detail/voronoi_ctypes.hpp lines 457-485 and 599-620. Doubles as in
   EfptModel.v. *)
From Coq Require Import ZArith List Bool.
From Flocq Require Import Core BinarySingleNaN.
From Verif Require Import XIntSpec EfptModel.
Import ListNotations.
Local Open Scope Z_scope.

(* static_cast<fpt64> of an integer: to the nearest double *)
Definition cast (z : Z) : fpt := binary_normalize 53 1024 prec53 emax1024 mode_NE z 0 false.
Definition f_word : fpt := cast 4294967296.
(* one step of the loop 470-473 *)
Definition horner (v : fpt) (c : Z) : fpt := Bplus mode_NE (Bmult mode_NE v f_word) (cast c).
(* p, 457-480; the last chunks come first in rev *)
Definition x_p (x : xint) : fpt * Z :=
  let q :=
    match rev (x_chunks x) with
    | [] => (f_zero, 0)
    | [a] => (cast a, 0)
    | [b; a] => (Bplus mode_NE (Bmult mode_NE (cast b) f_word) (cast a), 0)
    | c :: d :: e :: l => (horner (horner (horner f_zero c) d) e, Z.shiftl (Z.of_nat (length l)) 5)
    end in
  if x_count x <? 0 then (Bopp (fst q), snd q) else q.
(* d, 482-485, and type_converter_fpt, 604-606 *)
Definition x_d (x : xint) : fpt := ldexp (fst (x_p x)) (snd (x_p x)).
(* type_converter_efpt, 613-619 *)
Definition x_efpt (x : xint) : outcome efpt := make (fst (x_p x)) (snd (x_p x)).
