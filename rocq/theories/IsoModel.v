(* Model of isotropy.hpp (directions and orientations) and transform.hpp.
   The enums are modelled by their integer codes and the member functions by
   the bit operations of the code. *)
From Verif Require Import Base.

(* predicated_swap, isotropy.hpp:319-327: array of two pointers {&b, &tmp} *)
Definition predicated_swap {A : Type} (pred : bool) (a b : A) : A * A :=
  let input (i : bool) : A := if i then a else b in   (* input[0] = &b, input[1] = &tmp = old a *)
  let a' := input (negb pred) in
  (* b = *input[pred]: input[0] points at b, not yet overwritten *)
  let b' := input pred in
  (a', b').

(* enums, isotropy.hpp:329-342 *)
Definition LOW : Z := 0.
Definition HIGH : Z := 1.
Definition HORIZONTAL : Z := 0.
Definition VERTICAL : Z := 1.
Definition WEST : Z := 0.
Definition EAST : Z := 1.
Definition SOUTH : Z := 2.
Definition NORTH : Z := 3.
Definition PROXIMAL : Z := 2.
Definition DOWN : Z := 4.
Definition UP : Z := 5.

(* direction_1d, 353-373 *)
Definition d1_backward (d : Z) : Z := Z.lxor d 1.
(* val_ * 2 - 1 in unsigned int, converted to int (modulo 2^32) *)
Definition d1_get_sign (d : Z) : Z :=
  let u := (d * 2 - 1) mod 2 ^ 32 in if u >=? 2 ^ 31 then u - 2 ^ 32 else u.

(* orientation_2d, 377-400 *)
Definition o2_turn_90 (o : Z) : Z := Z.lxor o 1.
Definition o2_get_perpendicular (o : Z) : Z := o2_turn_90 o.
(* 455-457 *)
Definition o2_get_direction (o d1 : Z) : Z := Z.shiftl o 1 + d1.

(* direction_2d, 402-449 *)
Definition d2_backward (d : Z) : Z := Z.lxor d 1.
Definition d2_turn (d t : Z) : Z := Z.lxor (Z.lxor (Z.lxor d 3) (Z.shiftr d 1)) t.
Definition d2_left (d : Z) : Z := d2_turn d HIGH.
Definition d2_right (d : Z) : Z := d2_turn d LOW.
Definition d2_is_positive (d : Z) : bool := negb (Z.land d 1 =? 0).
Definition d2_is_negative (d : Z) : bool := negb (d2_is_positive d).
Definition d2_get_sign (d : Z) : Z := Z.shiftl (if d2_is_positive d then 1 else 0) 1 - 1.
(* 451, 453 *)
Definition d1_of_d2 (d : Z) : Z := Z.land d 1.
Definition o2_of_d2 (d : Z) : Z := Z.shiftr d 1.

(* orientation_3d, direction_3d, 459-521; same encodings with a third axis *)
Definition d3_backward (d : Z) : Z := Z.lxor d 1.
Definition d3_get_sign (d : Z) : Z := d2_get_sign d.
Definition o3_of_d3 (d : Z) : Z := Z.shiftr d 1.
Definition o3_get_direction (o d1 : Z) : Z := Z.shiftl o 1 + d1.

(* ---------- axis_transformation, transform.hpp:42-254 ---------- *)
Definition NULL_TRANSFORM : Z := 0.
Definition FLIP_X : Z := 1.
Definition FLIP_Y : Z := 2.
Definition SWAP_XY : Z := 4.
Definition ROTATE_LEFT : Z := 5.
Definition ROTATE_RIGHT : Z := 6.

Definition bitset (atr m : Z) : bool := negb (Z.land atr m =? 0).
Definition zb (b : bool) : Z := if b then 1 else 0.
(* index into a two element array *)
Definition sel {A : Type} (i : Z) (a0 a1 : A) : option A :=
  if i =? 0 then Some a0 else if i =? 1 then Some a1 else None.

(* operator+=, 138-159 *)
Definition atr_plus (atr a : Z) : option Z :=
  let abit2 := bitset a 4 in
  let abit1 := bitset a 2 in
  let abit0 := bitset a 1 in
  let bit2 := bitset atr 4 in
  let bit1 := bitset atr 2 in
  let bit0 := bitset atr 1 in
  let i00 := zb bit2 in
  let i01 := zb (negb bit2) in
  let i10 := zb abit2 in
  let i11 := zb (negb abit2) in
  do z1 <- sel i01 (zb abit0) (zb abit1);
  let nbit1 := Z.lxor (zb bit1) z1 in
  do z0 <- sel i00 (zb abit0) (zb abit1);
  let nbit0 := Z.lxor (zb bit0) z0 in
  do i00' <- sel i00 i10 i11;
  let nbit2 := Z.land i00' 1 in
  Some (Z.shiftl nbit2 2 + Z.shiftl nbit1 1 + nbit0).

(* populate_axis_array, 169-176: (axis_array[0], axis_array[1]) *)
Definition populate_axis_array (atr : Z) : Z * Z :=
  let bit2 := bitset atr 4 in
  let bit1 := bitset atr 2 in
  let bit0 := bitset atr 1 in
  (Z.shiftl (zb bit2) 1 + zb bit0, Z.shiftl (zb (negb bit2)) 1 + zb bit1).

(* get_directions, 179-187: (horizontal_dir, vertical_dir) *)
Definition get_directions (atr : Z) : Z * Z :=
  let bit2 := bitset atr 4 in
  let bit1 := bitset atr 2 in
  let bit0 := bitset atr 1 in
  (Z.shiftl (zb bit2) 1 + zb (negb bit0), Z.shiftl (zb (negb bit2)) 1 + zb (negb bit1)).

(* combine_axis_arrays, 191-204 *)
Definition combine_axis_arrays (this that : Z * Z) : option (Z * Z) :=
  let i0 := Z.shiftr (fst this) 1 in
  let i1 := Z.shiftr (snd this) 1 in
  do z0 <- sel i0 (Z.land (fst that) 1) (Z.land (snd that) 1);
  do z1 <- sel i1 (Z.land (fst that) 1) (Z.land (snd that) 1);
  Some (Z.lor (fst this) (Z.lxor (Z.land (fst this) 1) z0),
        Z.lor (snd this) (Z.lxor (Z.land (snd this) 1) z1)).

(* write_back_axis_array, 208-213 *)
Definition write_back_axis_array (this : Z * Z) : Z :=
  let bit2 := zb (negb (Z.land (fst this) 2 =? 0)) in
  let bit1 := Z.land (snd this) 1 in
  let bit0 := Z.land (fst this) 1 in
  Z.shiftl bit2 2 + Z.shiftl bit1 1 + bit0.

(* set_directions, 217-224 *)
Definition set_directions (h v : Z) : Z :=
  let bit2 := zb (negb (o2_of_d2 h =? 0)) in
  let bit1 := zb (Z.land v 1 =? 0) in
  let bit0 := zb (Z.land h 1 =? 0) in
  Z.shiftl bit2 2 + Z.shiftl bit1 1 + bit0.

(* transform, 227-235; coordinates unbounded *)
Definition atr_transform (atr : Z) (p : Z * Z) : Z * Z :=
  let bit2 := zb (bitset atr 4) in
  let bit1 := zb (bitset atr 2) in
  let bit0 := zb (bitset atr 1) in
  let x := fst p * - (Z.shiftl bit0 1 - 1) in
  let y := snd p * - (Z.shiftl bit1 1 - 1) in
  predicated_swap (negb (bit2 =? 0)) x y.

(* invert, 238-248 *)
Definition atr_invert (atr : Z) : Z :=
  let bit2 := zb (bitset atr 4) in
  let bit1 := zb (bitset atr 2) in
  let bit0 := zb (bitset atr 1) in
  let '(bit0', bit1') := predicated_swap (negb (bit2 =? 0)) bit0 bit1 in
  let bit1'' := Z.shiftl bit1' 1 in
  let atr1 := Z.land atr (32 + 16 + 8 + 4) in
  Z.lor (Z.lor atr1 bit0') bit1''.

(* ---------- anisotropic_scale_factor, transform.hpp:262-344 ----------
   scale factors are integers here, for which the rounding policy is exact *)
Definition asf_plus (s t : Z * Z) : Z * Z := (fst s * fst t, snd s * snd t).
(* transform(atr), 313-321 *)
Definition asf_transform (s : Z * Z) (atr : Z) : Z * Z :=
  let '(h, v) := get_directions atr in
  let put (o val : Z) (a : Z * Z) := if o =? 0 then (val, snd a) else (fst a, val) in
  put (o2_of_d2 v) (snd s) (put (o2_of_d2 h) (fst s) s).
(* scale, 325-331: both lines read get(HORIZONTAL) *)
Definition asf_scale (s : Z * Z) (p : Z * Z) : Z * Z := (fst p * fst s, snd p * fst s).

(* ---------- transformation, transform.hpp:352-470; coordinates unbounded -- *)
Record tr : Type := mk_tr { tr_atr : Z; tr_p : Z * Z }.
(* transform, 441-445 *)
Definition tr_transform (t : tr) (p : Z * Z) : Z * Z :=
  atr_transform (tr_atr t) (fst p - fst (tr_p t), snd p - snd (tr_p t)).
(* invert, 448-456 *)
Definition tr_invert (t : tr) : tr :=
  let q := atr_transform (tr_atr t) (tr_p t) in
  mk_tr (atr_invert (tr_atr t)) (fst q * -1, snd q * -1).
(* operator+=, 407-416, as it behaves if the two local variables x and y, which
   are declared without initialiser and read by inv.transform(x, y), happen to
   hold the values g *)
Definition tr_plus_garbage (g : Z * Z) (t u : tr) : option tr :=
  let xy := tr_transform (tr_invert t) g in
  do atr <- atr_plus (tr_atr t) (tr_atr u);
  Some (mk_tr atr (fst (tr_p t) + fst xy, snd (tr_p t) + snd xy)).
(* operator+= with the C++ semantics of an uninitialised variable: its value is
   [None], reading it is undefined behaviour *)
Definition tr_plus (t u : tr) : option tr :=
  let x : option Z := None in
  let y : option Z := None in
  do gx <- x;
  do gy <- y;
  tr_plus_garbage (gx, gy) t u.
(* operator== , 387-389 *)
Definition tr_eqb (t u : tr) : bool :=
  (tr_atr t =? tr_atr u) && (fst (tr_p t) =? fst (tr_p u)) && (snd (tr_p t) =? snd (tr_p u)).
