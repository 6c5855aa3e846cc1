(* Model of detail/polygon_simplify.hpp. The coordinates are integers, ftype and the
   threshold are exact rational numbers (they are long double); a division by zero,
   0 / 0 here, gives NaN, with which every comparison is false. *)
From Coq Require Import QArith ZArith List Bool.
From Verif Require Import Base Units Outcome Poly90Model SimplifySpec.
Import ListNotations.
Open Scope Q_scope.

(* a < b *)
Definition qlt (a b : Q) : bool := negb (Qle_bool b a).
(* lines 52-88: the square of the relevant distance; None is NaN *)
Definition relevant_dist (a b c : point) : option Q :=
  let ax := qx a in let ay := qy a in let bx := qx b in let by_ := qy b in let cx := qx c in let cy := qy c in
  let abx := bx - ax in let aby := by_ - ay in
  let bcx := cx - bx in let bcy := cy - by_ in
  let acx := cx - ax in let acy := cy - ay in
  let ab_ab := abx * abx + aby * aby in
  let bc_bc := bcx * bcx + bcy * bcy in
  let ac_ac := acx * acx + acy * acy in
  let ab_ac := abx * acx + aby * acy in
  if Qeq_bool ac_ac 0 then None
  else
    let projf := ab_ac / ac_ac in
    let projx := acx * projf in let projy := acy * projf in
    let perpx := abx - projx in let perpy := aby - projy in
    let f2 := (projx * acx + projy * acx) / ac_ac in
    Some (if qlt f2 0 then ab_ab else if qlt 1 f2 then bc_bc else perpx * perpx + perpy * perpy).
(* 90: dist2 > len2 *)
Definition keeps (len : Q) (a b c : point) : bool :=
  match relevant_dist a b c with None => false | Some dist2 => qlt (len * len) dist2 end.
(* the loop 47-97 from [prev] on; the list has the remaining values of *i and, at
   its end, the *next of the last one *)
Fixpoint pass_loop (len : Q) (prev : point) (l : list point) : list point :=
  match l with
  | i :: ((next :: _) as l') => if keeps len prev i next then i :: pass_loop len i l' else pass_loop len prev l'
  | _ => []
  end.
Definition simplify_pass (len : Q) (dst : list point) : list point :=
  match dst with
  | p0 :: ((p1 :: _) as rest) => pass_loop len p0 (rest ++ [p0; p1])
  | _ => []
  end.
(* 38-105; the result is dst with its final_result *)
Fixpoint simplify_loop (fuel : nat) (len : Q) (orig_size final_result : Z) (closed : bool) (dst : list point) : option (list point * Z) :=
  match fuel with
  | O => None
  | S fuel' =>
      if (length dst <? 3)%nat then Some ([], orig_size)
      else
        let out := simplify_pass len dst in
        let result := (Z.of_nat (length dst) - Z.of_nat (length out))%Z in
        if (result =? 0)%Z then
          (* 106-111; final_result is a std::size_t *)
          if closed then
            match dst with
            | [] => None
            | p :: _ => Some (dst ++ [p], ((final_result - 1) mod 2 ^ 64)%Z)
            end
          else Some (dst, final_result)
        else simplify_loop fuel' len orig_size (final_result + result) closed out
  end.
(* 16-113. src.front() of an empty vector is undefined. *)
Definition simplify (len : Q) (src : list point) : outcome (list point * Z) :=
  match src with
  | [] => Undefined
  | _ =>
      match simplify_loop (S (length src)) len (Z.of_nat (length src)) 0 (closed_list src) src with
      | Some r => Ok r
      | None => Undefined
      end
  end.
