(* Model of detail/voronoi_robust_fpt.hpp: robust_fpt, robust_dif and
   robust_sqrt_expr. Floating point values are real numbers; every operation is
   followed by an arbitrary rounding function [rnd], the conversion of an
   integer is an arbitrary function [cv]; there is no overflow and no underflow
   (the builder uses extended_exponent_fpt for this purpose). NaN and division
   by zero are the result None. Integers are exact. *)
From Coq Require Import Reals ZArith List.
From Verif Require Import Base RobustSpec.
Open Scope R_scope.

Definition is_pos (x : R) : bool := if Rlt_dec 0 x then true else false.
Definition is_neg (x : R) : bool := if Rlt_dec x 0 then true else false.

(* ---------- robust_sqrt_expr, 424-496 ---------- *)
(* the arrays A and B of the caller and the members tA, tB (493-494) *)
Record mem : Type := mk_mem { m_A : nat -> Z; m_B : nat -> Z; m_tA : nat -> Z; m_tB : nat -> Z }.
(* a pair of pointers, into A and B or into tA and tB, at the same offset *)
Record ptr : Type := mk_ptr { p_temp : bool; p_off : nat }.
Definition shift (p : ptr) (k : nat) : ptr := mk_ptr (p_temp p) (p_off p + k).
Definition rdA (m : mem) (p : ptr) (i : nat) : Z := (if p_temp p then m_tA m else m_A m) (p_off p + i)%nat.
Definition rdB (m : mem) (p : ptr) (i : nat) : Z := (if p_temp p then m_tB m else m_B m) (p_off p + i)%nat.
Definition upd (f : nat -> Z) (i : nat) (v : Z) : nat -> Z := fun j => if Nat.eqb j i then v else f j.
Definition wr (m : mem) (i : nat) (a b : Z) : mem := mk_mem (m_A m) (m_B m) (upd (m_tA m) i a) (upd (m_tB m) i b).

Section Eval.
Variable rnd : R -> R.
Variable cv : Z -> R.

Definition f_sqrt (x : R) : option R := if is_neg x then None else Some (rnd (sqrt x)).
Definition f_div (x y : R) : option R := if Req_EM_T y 0 then None else Some (rnd (x / y)).

(* eval1, 440-444 *)
Definition eval1 (m : mem) (p : ptr) : option R :=
  let a := cv (rdA m p 0) in
  let b := cv (rdB m p 0) in
  do s <- f_sqrt b; Some (rnd (a * s)).
(* the condition 451-452, 462-463, 479-480 *)
Definition same_side (a b : R) : bool := (negb (is_neg a) && negb (is_neg b)) || (negb (is_pos a) && negb (is_pos b)).
(* eval2, 448-455 *)
Definition eval2 (m : mem) (p : ptr) : option R :=
  do a <- eval1 m p;
  do b <- eval1 m (shift p 1);
  if same_side a b then Some (rnd (a + b))
  else f_div (cv (rdA m p 0 * rdA m p 0 * rdB m p 0 - rdA m p 1 * rdA m p 1 * rdB m p 1)%Z) (rnd (a - b)).
(* eval3, 459-470; the second component is the memory afterwards *)
Definition eval3 (m : mem) (p : ptr) : option (R * mem) :=
  do a <- eval2 m p;
  do b <- eval1 m (shift p 2);
  if same_side a b then Some (rnd (a + b), m)
  else
    let m1 := wr m 3 (rdA m p 0 * rdA m p 0 * rdB m p 0 + rdA m p 1 * rdA m p 1 * rdB m p 1
                      - rdA m p 2 * rdA m p 2 * rdB m p 2)%Z 1%Z in
    let m2 := wr m1 4 (rdA m1 p 0 * rdA m1 p 1 * 2)%Z (rdB m1 p 0 * rdB m1 p 1)%Z in
    do n <- eval2 m2 (mk_ptr true 3);
    do q <- f_div n (rnd (a - b));
    Some (q, m2).
(* eval4, 476-490 *)
Definition eval4 (m : mem) (p : ptr) : option (R * mem) :=
  do a <- eval2 m p;
  do b <- eval2 m (shift p 2);
  if same_side a b then Some (rnd (a + b), m)
  else
    let m1 := wr m 0 (rdA m p 0 * rdA m p 0 * rdB m p 0 + rdA m p 1 * rdA m p 1 * rdB m p 1
                      - rdA m p 2 * rdA m p 2 * rdB m p 2 - rdA m p 3 * rdA m p 3 * rdB m p 3)%Z 1%Z in
    let m2 := wr m1 1 (rdA m1 p 0 * rdA m1 p 1 * 2)%Z (rdB m1 p 0 * rdB m1 p 1)%Z in
    let m3 := wr m2 2 (rdA m2 p 2 * rdA m2 p 3 * -2)%Z (rdB m2 p 2 * rdB m2 p 3)%Z in
    do nm <- eval3 m3 (mk_ptr true 0);
    let '(n, m4) := nm in
    do q <- f_div n (rnd (a - b));
    Some (q, m4).

(* ---------- robust_fpt, 79-214 ---------- *)
Record robust_fpt : Type := mk_rf { fpv : R; re : R }.
(* operator+ (and +=), 116-130, 160-174. The error bound is computed in floating
   point too; modelled exactly. *)
Definition rf_add (x y : robust_fpt) : option robust_fpt :=
  let v := rnd (fpv x + fpv y) in
  if same_side (fpv x) (fpv y) then Some (mk_rf v (Rmax (re x) (re y) + 1))
  else if Req_EM_T v 0 then None
  else Some (mk_rf v (Rabs ((fpv x * re x - fpv y * re y) / v) + 1)).
(* operator- (and -=), 132-146, 176-190 *)
Definition rf_sub (x y : robust_fpt) : option robust_fpt :=
  let v := rnd (fpv x - fpv y) in
  if (negb (is_neg (fpv x)) && negb (is_pos (fpv y))) || (negb (is_pos (fpv x)) && negb (is_neg (fpv y)))
  then Some (mk_rf v (Rmax (re x) (re y) + 1))
  else if Req_EM_T v 0 then None
  else Some (mk_rf v (Rabs ((fpv x * re x + fpv y * re y) / v) + 1)).
(* unary minus, 112-114 *)
Definition rf_neg (x : robust_fpt) : robust_fpt := mk_rf (- fpv x) (re x).
(* operator* and operator/, 148-158, 192-202 *)
Definition rf_mul (x y : robust_fpt) : robust_fpt := mk_rf (rnd (fpv x * fpv y)) (re x + re y + 1).
Definition rf_div (x y : robust_fpt) : option robust_fpt :=
  do q <- f_div (fpv x) (fpv y); Some (mk_rf q (re x + re y + 1)).
(* sqrt, 204-208 *)
Definition rf_sqrt (x : robust_fpt) : option robust_fpt :=
  do s <- f_sqrt (fpv x); Some (mk_rf s (re x * / 2 + 1)).
End Eval.

(* ---------- robust_dif, 240-423; values are exact numbers here ---------- *)
Record robust_dif : Type := mk_rd { positive_sum : R; negative_sum : R }.
Definition rd_dif (d : robust_dif) : R := positive_sum d - negative_sum d.
(* constructors, 243-253 *)
Definition rd_zero : robust_dif := mk_rd 0 0.
Definition rd_of (v : R) : robust_dif := mk_rd (if is_pos v then v else 0) (if is_neg v then - v else 0).
(* unary minus, 267-269 *)
Definition rd_neg (d : robust_dif) : robust_dif := mk_rd (negative_sum d) (positive_sum d).
(* operator+= and + with a value, 271-277, 348-355 *)
Definition rd_add_v (d : robust_dif) (v : R) : robust_dif :=
  if negb (is_neg v) then mk_rd (positive_sum d + v) (negative_sum d)
  else mk_rd (positive_sum d) (negative_sum d - v).
(* operator+= and +, 279-283, 342-346 *)
Definition rd_add (a b : robust_dif) : robust_dif :=
  mk_rd (positive_sum a + positive_sum b) (negative_sum a + negative_sum b).
(* value + robust_dif, 357-364 *)
Definition rd_v_add (v : R) (d : robust_dif) : robust_dif :=
  if negb (is_neg v) then mk_rd (v + positive_sum d) (negative_sum d)
  else mk_rd (positive_sum d) (negative_sum d - v).
(* operator-= and - with a value, 285-291, 372-379 *)
Definition rd_sub_v (d : robust_dif) (v : R) : robust_dif :=
  if negb (is_neg v) then mk_rd (positive_sum d) (negative_sum d + v)
  else mk_rd (positive_sum d - v) (negative_sum d).
(* value - robust_dif, 381-388 *)
Definition rd_v_sub (v : R) (d : robust_dif) : robust_dif :=
  if negb (is_neg v) then mk_rd (v + negative_sum d) (positive_sum d)
  else mk_rd (negative_sum d) (positive_sum d - v).
(* operator-= and -, 293-297, 366-370 *)
Definition rd_sub (a b : robust_dif) : robust_dif :=
  mk_rd (positive_sum a + negative_sum b) (negative_sum a + positive_sum b).
(* operator*= with a value, 299-309 *)
Definition rd_mul_v (d : robust_dif) (v : R) : robust_dif :=
  if negb (is_neg v) then mk_rd (positive_sum d * v) (negative_sum d * v)
  else mk_rd (negative_sum d * - v) (positive_sum d * - v).
(* operator* with a value, 398-405 *)
Definition rd_mul_v2 (d : robust_dif) (v : R) : robust_dif :=
  if negb (is_neg v) then mk_rd (positive_sum d * v) (negative_sum d * v)
  else mk_rd (- negative_sum d * v) (- positive_sum d * v).
(* value * robust_dif, 407-414 *)
Definition rd_v_mul (v : R) (d : robust_dif) : robust_dif :=
  if negb (is_neg v) then mk_rd (v * positive_sum d) (v * negative_sum d)
  else mk_rd (- v * negative_sum d) (- v * positive_sum d).
(* operator*= and *, 311-319, 390-396 *)
Definition rd_mul (a b : robust_dif) : robust_dif :=
  mk_rd (positive_sum a * positive_sum b + negative_sum a * negative_sum b)
        (positive_sum a * negative_sum b + negative_sum a * positive_sum b).
(* operator/= with a value, 321-331; operator/ 416-423 *)
Definition rd_div_v (d : robust_dif) (v : R) : option robust_dif :=
  if Req_EM_T v 0 then None
  else if negb (is_neg v) then Some (mk_rd (positive_sum d / v) (negative_sum d / v))
  else Some (mk_rd (negative_sum d / - v) (positive_sum d / - v)).
Definition rd_div_v2 (d : robust_dif) (v : R) : option robust_dif :=
  if Req_EM_T v 0 then None
  else if negb (is_neg v) then Some (mk_rd (positive_sum d / v) (negative_sum d / v))
  else Some (mk_rd (- negative_sum d / v) (- positive_sum d / v)).

(* a program made of the operators; [inplace] selects the assigning forms *)
Fixpoint run (inplace : bool) (e : dexpr) : option robust_dif :=
  match e with
  | e_val v => Some (rd_of v)
  | e_neg a => do d <- run inplace a; Some (rd_neg d)
  | e_add a b => do x <- run inplace a; do y <- run inplace b; Some (rd_add x y)
  | e_add_v a v => do d <- run inplace a; Some (rd_add_v d v)
  | e_v_add v a => do d <- run inplace a; Some (rd_v_add v d)
  | e_sub a b => do x <- run inplace a; do y <- run inplace b; Some (rd_sub x y)
  | e_sub_v a v => do d <- run inplace a; Some (rd_sub_v d v)
  | e_v_sub v a => do d <- run inplace a; Some (rd_v_sub v d)
  | e_mul a b => do x <- run inplace a; do y <- run inplace b; Some (rd_mul x y)
  | e_mul_v a v => do d <- run inplace a; Some (if inplace then rd_mul_v d v else rd_mul_v2 d v)
  | e_v_mul v a => do d <- run inplace a; Some (rd_v_mul v d)
  | e_div_v a v => do d <- run inplace a; if inplace then rd_div_v d v else rd_div_v2 d v
  end.
