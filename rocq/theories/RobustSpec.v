(* Specification of the rounded evaluation of sums of square roots. *)
From Coq Require Import Reals ZArith.
Open Scope R_scope.

(* sum over i < n of A[i] * sqrt(B[i]) *)
Fixpoint sum_sqrt (n : nat) (A B : nat -> Z) : R :=
  match n with
  | O => 0
  | S k => sum_sqrt k A B + IZR (A k) * sqrt (IZR (B k))
  end.

(* a rounding function with relative error at most eps, and a conversion of
   integers with relative error at most eps *)
Definition rounds (eps : R) (rnd : R -> R) : Prop := forall x, Rabs (rnd x - x) <= eps * Rabs x.
Definition converts (eps : R) (cv : Z -> R) : Prop := forall z, Rabs (cv z - IZR z) <= eps * Rabs (IZR z).

(* v has relative error at most k * eps *)
Definition within_eps (k eps v exact : R) : Prop := Rabs (v - exact) <= k * eps * Rabs exact.
(* v and the exact value have the same sign *)
Definition same_sign (v exact : R) : Prop := (0 < v <-> 0 < exact) /\ (v < 0 <-> exact < 0).

(* x is the exact value X up to t factors 1 + eps, with t at most k: the
   relative error is k eps up to higher powers of eps *)
Definition tracks (eps k x X : R) : Prop := exists t, x = X * Rpower (1 + eps) t /\ Rabs t <= k.

(* arithmetic expressions over the numbers, and their value (None: division by zero) *)
Inductive dexpr : Type :=
  | e_val (v : R)
  | e_neg (a : dexpr)
  | e_add (a b : dexpr) | e_add_v (a : dexpr) (v : R) | e_v_add (v : R) (a : dexpr)
  | e_sub (a b : dexpr) | e_sub_v (a : dexpr) (v : R) | e_v_sub (v : R) (a : dexpr)
  | e_mul (a b : dexpr) | e_mul_v (a : dexpr) (v : R) | e_v_mul (v : R) (a : dexpr)
  | e_div_v (a : dexpr) (v : R).
Definition opt2 (f : R -> R -> R) (a b : option R) : option R :=
  match a, b with Some x, Some y => Some (f x y) | _, _ => None end.
Fixpoint value (e : dexpr) : option R :=
  match e with
  | e_val v => Some v
  | e_neg a => opt2 Rminus (Some 0) (value a)
  | e_add a b => opt2 Rplus (value a) (value b)
  | e_add_v a v => opt2 Rplus (value a) (Some v)
  | e_v_add v a => opt2 Rplus (Some v) (value a)
  | e_sub a b => opt2 Rminus (value a) (value b)
  | e_sub_v a v => opt2 Rminus (value a) (Some v)
  | e_v_sub v a => opt2 Rminus (Some v) (value a)
  | e_mul a b => opt2 Rmult (value a) (value b)
  | e_mul_v a v => opt2 Rmult (value a) (Some v)
  | e_v_mul v a => opt2 Rmult (Some v) (value a)
  | e_div_v a v => if Req_EM_T v 0 then None else opt2 Rdiv (value a) (Some v)
  end.
