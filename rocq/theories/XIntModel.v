(* Model of extended_int<N>, voronoi_ctypes.hpp:222-577. An object is its count
   and the first |count| entries of the array of chunks; entries beyond that
   are never read. The capacity N is a parameter of the operations that look
   at it. Results are fresh objects (as in the operators): add, dif and mul
   called on one of their own arguments are not modelled. *)
From Verif Require Import Base Scan90Spec Set90Spec Set90Model IvlModel XIntSpec.

(* conversion to uint32 and uint64 *)
Definition u32 (z : Z) : Z := z mod 2 ^ 32.
Definition u64 (z : Z) : Z := z mod 2 ^ 64.

(* constructor and assignment from int32, 227-237, 271-282 *)
Definition x_of_int32 (z : Z) : outcome xint :=
  if z >? 0 then Ok (mk_x 1 [u32 z])
  else if z <? 0 then try m <- chk (- z); Ok (mk_x (-1) [u32 m])
  else Ok (mk_x 0 []).
(* from int64, 239-252, 284-298: writes two chunks *)
Definition x_of_int64 (N : nat) (z : Z) : outcome xint :=
  if z =? 0 then Ok (mk_x 0 [])
  else if (N <? 2)%nat then Undefined
  else if z >? 0 then
    let c1 := u32 (Z.shiftr z 32) in
    if negb (c1 =? 0) then Ok (mk_x 2 [u32 z; c1]) else Ok (mk_x 1 [u32 z])
  else
    try m <- chk64 (- z);
    let c1 := u32 (Z.shiftr m 32) in
    if negb (c1 =? 0) then Ok (mk_x (-2) [u32 m; c1]) else Ok (mk_x (-1) [u32 m]).
(* from a vector, most significant chunk first, 254-261 *)
Definition x_of_vector (N : nat) (chunks : list Z) (plus : bool) : xint :=
  let c := firstn (Nat.min N (length chunks)) (rev chunks) in
  mk_x (if plus then Z.of_nat (length c) else - Z.of_nat (length c)) c.
(* from an extended_int<M>, 263-267, 300-305: memcpy of size() chunks *)
Definition x_of_x (N : nat) (x : xint) : outcome xint :=
  if (length (x_chunks x) <=? N)%nat then Ok x else Undefined.

(* is_pos, is_neg, is_zero, 307-317, 579-592 *)
Definition x_is_pos (x : xint) : bool := x_count x >? 0.
Definition x_is_neg (x : xint) : bool := x_count x <? 0.
Definition x_is_zero (x : xint) : bool := x_count x =? 0.
(* operator==, 319-326 *)
Fixpoint chunks_eqb (l m : list Z) : bool :=
  match l, m with
  | [], [] => true
  | a :: l', b :: m' => (a =? b) && chunks_eqb l' m'
  | _, _ => false
  end.
Definition x_eqb (x y : xint) : bool :=
  if negb (x_count x =? x_count y) then false else chunks_eqb (x_chunks x) (x_chunks y).
(* operator<, 332-345: from the most significant chunk down *)
Fixpoint less_loop (neg : bool) (l m : list Z) : bool :=
  match l, m with
  | a :: l', b :: m' => if negb (a =? b) then xorb (a <? b) neg else less_loop neg l' m'
  | _, _ => false
  end.
Definition x_ltb (x y : xint) : bool :=
  if negb (x_count x =? x_count y) then x_count x <? x_count y
  else less_loop (x_count x <? 0) (rev (x_chunks x)) (rev (x_chunks y)).
(* neg, 359-367 *)
Definition x_neg (x : xint) : xint := mk_x (- x_count x) (x_chunks x).

(* add of chunks, 487-508 *)
Fixpoint add_loop (c1 c2 : list Z) (temp : Z) : list Z * Z :=
  match c1, c2 with
  | a :: c1', b :: c2' =>
      let t := u64 (temp + (a + b)) in
      let '(r, k) := add_loop c1' c2' (Z.shiftr t 32) in (u32 t :: r, k)
  | a :: c1', [] =>
      let t := u64 (temp + a) in
      let '(r, k) := add_loop c1' [] (Z.shiftr t 32) in (u32 t :: r, k)
  | [], _ => ([], temp)
  end.
Definition add_chunks (N : nat) (c1 c2 : list Z) : xint :=
  let '(c1, c2) := if (length c1 <? length c2)%nat then (c2, c1) else (c1, c2) in
  let '(r, temp) := add_loop c1 c2 0 in
  if negb (temp =? 0) && negb (length r =? N)%nat
  then mk_x (Z.of_nat (length r) + 1) (r ++ [u32 temp])
  else mk_x (Z.of_nat (length r)) r.
(* dif of chunks with sz1 >= sz2, 535-548 *)
Fixpoint dif_loop (c1 c2 : list Z) (flag : bool) : list Z :=
  match c1, c2 with
  | a :: c1', b :: c2' =>
      u32 (a - b - b2z flag) :: dif_loop c1' c2' ((a <? b) || ((a =? b) && flag))
  | a :: c1', [] => u32 (a - b2z flag) :: dif_loop c1' [] ((a =? 0) && flag)
  | [], _ => []
  end.
Definition dif_core (c1 c2 : list Z) : xint :=
  let r := dif_loop c1 c2 false in
  let n := (length c1 - 1)%nat in
  if negb (nth n r 0 =? 0) then mk_x (Z.of_nat n + 1) r else mk_x (Z.of_nat n) (firstn n r).
(* the search for the highest chunk that differs, 517-534, on the chunks from
   the most significant one; true if the second number is larger *)
Fixpoint dif_scan (r1 r2 : list Z) : option (bool * list Z * list Z) :=
  match r1, r2 with
  | a :: r1', b :: r2' =>
      if a <? b then Some (true, r1, r2)
      else if a >? b then Some (false, r1, r2)
      else dif_scan r1' r2'
  | _, _ => None
  end.
(* dif of chunks, 510-549; the calls in 514 and 522 have rec = true and go to the
   last part of the function *)
Definition dif_chunks (c1 c2 : list Z) : xint :=
  if (length c1 <? length c2)%nat then x_neg (dif_core c2 c1)
  else if (length c1 =? length c2)%nat then
    match dif_scan (rev c1) (rev c2) with
    | None => mk_x 0 []
    | Some (true, r1, r2) => x_neg (dif_core (rev r2) (rev r1))
    | Some (false, r1, r2) => dif_core (rev r1) (rev r2)
    end
  else dif_core c1 c2.
(* mul of chunks, 551-577: inner loop over first, with second = shift - first *)
Fixpoint mul_inner (c1 c2 : list Z) (second : nat) (cur nxt : Z) : Z * Z :=
  match c1 with
  | [] => (cur, nxt)
  | a :: c1' =>
      let '(cur', nxt') :=
        match nth_error c2 second with
        | None => (cur, nxt)
        | Some b => let tmp := u64 (a * b) in (u64 (cur + u32 tmp), u64 (nxt + Z.shiftr tmp 32))
        end in
      match second with
      | O => (cur', nxt')
      | S s => mul_inner c1' c2 s cur' nxt'
      end
  end.
Fixpoint mul_loop (n shift : nat) (c1 c2 : list Z) (cur : Z) : list Z * Z :=
  match n with
  | O => ([], cur)
  | S n' =>
      let '(cur', nxt) := mul_inner c1 c2 shift cur 0 in
      let '(r, k) := mul_loop n' (S shift) c1 c2 (u64 (nxt + Z.shiftr cur' 32)) in
      (u32 cur' :: r, k)
  end.
Definition mul_chunks (N : nat) (c1 c2 : list Z) : xint :=
  let n := Nat.min N (length c1 + length c2 - 1) in
  let '(r, cur) := mul_loop n 0 c1 c2 0 in
  if negb (cur =? 0) && negb (n =? N)%nat
  then mk_x (Z.of_nat n + 1) (r ++ [u32 cur])
  else mk_x (Z.of_nat n) r.

(* operator+, add, 369-391 *)
Definition x_add (N : nat) (x y : xint) : xint :=
  if x_count x =? 0 then y
  else if x_count y =? 0 then x
  else
    let r := if xorb (x_count x >? 0) (x_count y >? 0) then dif_chunks (x_chunks x) (x_chunks y)
             else add_chunks N (x_chunks x) (x_chunks y) in
    if x_count x <? 0 then x_neg r else r.
(* operator-, dif, 393-416 *)
Definition x_sub (N : nat) (x y : xint) : xint :=
  if x_count x =? 0 then x_neg y
  else if x_count y =? 0 then x
  else
    let r := if xorb (x_count x >? 0) (x_count y >? 0) then add_chunks N (x_chunks x) (x_chunks y)
             else dif_chunks (x_chunks x) (x_chunks y) in
    if x_count x <? 0 then x_neg r else r.
(* operator*, mul, 418-442 *)
Definition x_mul (N : nat) (x y : xint) : xint :=
  if (x_count x =? 0) || (x_count y =? 0) then mk_x 0 []
  else
    let r := mul_chunks N (x_chunks x) (x_chunks y) in
    if xorb (x_count x >? 0) (x_count y >? 0) then x_neg r else r.
Definition x_mul_int32 (N : nat) (x : xint) (z : Z) : outcome xint := try y <- x_of_int32 z; Ok (x_mul N x y).
Definition x_mul_int64 (N : nat) (x : xint) (z : Z) : outcome xint := try y <- x_of_int64 N z; Ok (x_mul N x y).

(* an expression written with the constructors and operators *)
Fixpoint run (N : nat) (e : expr) : outcome xint :=
  match e with
  | Lit32 z => x_of_int32 z
  | Lit64 z => x_of_int64 N z
  | Neg e => try x <- run N e; Ok (x_neg x)
  | Add e f => try x <- run N e; try y <- run N f; Ok (x_add N x y)
  | Sub e f => try x <- run N e; try y <- run N f; Ok (x_sub N x y)
  | Mul e f => try x <- run N e; try y <- run N f; Ok (x_mul N x y)
  end.
