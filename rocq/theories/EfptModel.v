(* Model of extended_exponent_fpt<double>, detail/voronoi_ctypes.hpp lines 71-224.
   A double is an IEEE 754 number of 64 bits as in the library Flocq, without
   the bits of a NaN; the rounding mode is the default one, to nearest and to
   even. The exponent is an int: an operation of ints that leaves the range is
   undefined behaviour, [Overflow]. frexp of an infinity or a NaN leaves an
   unspecified exponent: the outcome is [Special]. *)
From Coq Require Import ZArith Bool.
From Flocq Require Import Core BinarySingleNaN.
Local Open Scope Z_scope.

#[global] Instance prec53 : Prec_gt_0 53 := eq_refl.
#[global] Instance emax1024 : Prec_lt_emax 53 1024 := eq_refl.
Definition fpt := binary_float 53 1024.
Inductive outcome (A : Type) : Type := Val (a : A) | Overflow | Special.
Arguments Val {A} a.
Arguments Overflow {A}.
Arguments Special {A}.

(* the members val_ and exp_, 199-201 *)
Record efpt : Type := mk_efpt { e_val : fpt; e_exp : Z }.
Definition int_ok (e : Z) : bool := (-2147483648 <=? e) && (e <=? 2147483647).
Definition f_zero : fpt := B754_zero false.
Definition f_two : fpt := binary_normalize 53 1024 prec53 emax1024 mode_NE 2 0 false.
(* std::frexp: zero has exponent 0 *)
Definition frexp (v : fpt) : fpt * Z := match v with B754_zero _ => (v, 0) | _ => Bfrexp v end.
(* std::ldexp *)
Definition ldexp (v : fpt) (e : Z) : fpt := Bldexp mode_NE v e.
(* extended_exponent_fpt(val, exp), 96-99; extended_exponent_fpt(val), 92-94, is the case exp = 0 *)
Definition make (v : fpt) (exp : Z) : outcome efpt :=
  if is_finite v then
    let q := frexp v in
    if int_ok (snd q + exp) then Val (mk_efpt (fst q) (snd q + exp)) else Overflow
  else Special.
(* is_pos, is_neg, is_zero, 101-111 *)
Definition e_is_pos (a : efpt) : bool := Bltb f_zero (e_val a).
Definition e_is_neg (a : efpt) : bool := Bltb (e_val a) f_zero.
Definition e_is_zero (a : efpt) : bool := Beqb (e_val a) f_zero.
(* operator-(), 113-115 *)
Definition e_opp (a : efpt) : outcome efpt := make (Bopp (e_val a)) (e_exp a).
(* MAX_SIGNIFICANT_EXP_DIF, 78-80 *)
Definition max_dif : Z := 54.
(* operator+, 117-135; the differences of exponents are at most 54 *)
Definition e_plus (a b : efpt) : outcome efpt :=
  if Beqb (e_val a) f_zero then Val b
  else if negb (int_ok (e_exp a + max_dif)) then Overflow
  else if e_exp b >? e_exp a + max_dif then Val b
  else if Beqb (e_val b) f_zero then Val a
  else if negb (int_ok (e_exp b + max_dif)) then Overflow
  else if e_exp a >? e_exp b + max_dif then Val a
  else if e_exp a >=? e_exp b then
    make (Bplus mode_NE (ldexp (e_val a) (e_exp a - e_exp b)) (e_val b)) (e_exp b)
  else
    make (Bplus mode_NE (ldexp (e_val b) (e_exp b - e_exp a)) (e_val a)) (e_exp a).
(* operator-, 137-155 *)
Definition e_minus (a b : efpt) : outcome efpt :=
  if Beqb (e_val a) f_zero then make (Bopp (e_val b)) (e_exp b)
  else if negb (int_ok (e_exp a + max_dif)) then Overflow
  else if e_exp b >? e_exp a + max_dif then make (Bopp (e_val b)) (e_exp b)
  else if Beqb (e_val b) f_zero then Val a
  else if negb (int_ok (e_exp b + max_dif)) then Overflow
  else if e_exp a >? e_exp b + max_dif then Val a
  else if e_exp a >=? e_exp b then
    make (Bminus mode_NE (ldexp (e_val a) (e_exp a - e_exp b)) (e_val b)) (e_exp b)
  else
    make (Bplus mode_NE (ldexp (Bopp (e_val b)) (e_exp b - e_exp a)) (e_val a)) (e_exp a).
(* operator*, 157-161 *)
Definition e_mult (a b : efpt) : outcome efpt :=
  if int_ok (e_exp a + e_exp b) then make (Bmult mode_NE (e_val a) (e_val b)) (e_exp a + e_exp b) else Overflow.
(* operator/, 163-167 *)
Definition e_div (a b : efpt) : outcome efpt :=
  if int_ok (e_exp a - e_exp b) then make (Bdiv mode_NE (e_val a) (e_val b)) (e_exp a - e_exp b) else Overflow.
(* sqrt, 185-193; exp & 1 is the last bit of the two's complement, exp >> 1 shifts the sign in *)
Definition e_sqrt (a : efpt) : outcome efpt :=
  if Z.odd (e_exp a) then make (Bsqrt mode_NE (Bmult mode_NE (e_val a) f_two)) (Z.shiftr (e_exp a - 1) 1)
  else make (Bsqrt mode_NE (e_val a)) (Z.shiftr (e_exp a) 1).
(* d, 195-197 *)
Definition e_d (a : efpt) : fpt := ldexp (e_val a) (e_exp a).
