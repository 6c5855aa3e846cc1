(* Model of robust_sqrt_expr::eval1 and eval2, detail/voronoi_robust_fpt.hpp
   lines 438-455, with the types of the Voronoi builder for int coordinates
   (voronoi_ctypes.hpp lines 624-640): big integers extended_int<N>, numbers
   extended_exponent_fpt<double>, and type_converter_efpt. *)
From Coq Require Import ZArith Bool.
From Verif Require Import XIntSpec XIntModel EfptModel XConvModel.

Definition bindo {A B : Type} (o : outcome A) (f : A -> outcome B) : outcome B :=
  match o with Val a => f a | Overflow => Overflow | Special => Special end.
(* eval1, 440-444 *)
Definition s_eval1 (A B : xint) : outcome efpt :=
  bindo (x_efpt A) (fun a => bindo (x_efpt B) (fun b => bindo (e_sqrt b) (fun s => e_mult a s))).
(* eval2, 448-455 *)
Definition s_eval2 (N : nat) (A0 B0 A1 B1 : xint) : outcome efpt :=
  bindo (s_eval1 A0 B0) (fun a =>
  bindo (s_eval1 A1 B1) (fun b =>
  if (negb (e_is_neg a) && negb (e_is_neg b)) || (negb (e_is_pos a) && negb (e_is_pos b)) then e_plus a b
  else
    bindo (x_efpt (x_sub N (x_mul N (x_mul N A0 A0) B0) (x_mul N (x_mul N A1 A1) B1))) (fun n =>
    bindo (e_minus a b) (fun d => e_div n d)))).
