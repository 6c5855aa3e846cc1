(* Model of interval_concept.hpp (except the deprecated scale by a double) for int coordinates (coordinate_difference is
   long long). *)
From Verif Require Import Base Scan90Spec Set90Spec Set90Model GeoSpec.

(* conversion of an integer to int: modulo 2^32 (implementation-defined before
   C++20, this value on the usual platforms) *)
Definition wrap32 (z : Z) : Z := (z + 2 ^ 31) mod 2 ^ 32 - 2 ^ 31.

(* get, set, low, high: 85-114, 174-234, interval_data.hpp:54-78 *)
Definition ivl_get (i : ivl) (high : bool) : Z := if high then hi i else lo i.
Definition ivl_set (i : ivl) (high : bool) (v : Z) : ivl :=
  if high then mk_ivl (lo i) v else mk_ivl v (hi i).
(* construct, 116-134 *)
Definition ivl_make (l h : Z) : ivl := if l >? h then mk_ivl h l else mk_ivl l h.
(* copy_construct 136-152, assign 154-172 *)
Definition ivl_copy_construct (i : ivl) : ivl := ivl_make (lo i) (hi i).
(* equivalence, 236-255 *)
Definition ivl_equiv (i j : ivl) : bool := (lo i =? lo j) && (hi i =? hi j).
(* contains value, 257-277 *)
Definition contains_v (i : ivl) (v : Z) (touch : bool) : bool :=
  if touch then (v <=? hi i) && (v >=? lo i) else (v <? hi i) && (v >? lo i).
(* contains interval, 279-299 *)
Definition contains_i (i j : ivl) (touch : bool) : bool :=
  contains_v i (lo j) touch && contains_v i (hi j) touch.
(* center, 301-314: int arithmetic *)
Definition ivl_center (i : ivl) : outcome Z := try s <- chk (hi i + lo i); Ok (Z.quot s 2).
(* delta, 316-331 *)
Definition ivl_delta (i : ivl) : outcome Z := chk64 (hi i - lo i).
(* flip, 333-352 *)
Definition ivl_flip (i : ivl) (axis : Z) : outcome ivl :=
  try a <- chk (2 * axis);
  try l <- chk (a - hi i);
  try a2 <- chk (2 * axis);
  try h <- chk (a2 - lo i);
  Ok (mk_ivl l h).
(* scale_up, 354-373 *)
Definition ivl_scale_up (i : ivl) (k : Z) : outcome ivl :=
  try h <- chk (hi i * k); try l <- chk (lo i * k); Ok (mk_ivl l h).
(* int division: by 0 undefined *)
Definition div_int (a b : Z) : outcome Z := if b =? 0 then Undefined else chk (Z.quot a b).
(* scale_down, 375-394 *)
Definition ivl_scale_down (i : ivl) (k : Z) : outcome ivl :=
  try h <- div_int (hi i) k; try l <- div_int (lo i) k; Ok (mk_ivl l h).
(* move, 418-439: long long arithmetic, then conversion to int *)
Definition ivl_move (i : ivl) (d : Z) : outcome ivl :=
  try l <- chk64 (lo i + d); try h <- chk64 (hi i + d); Ok (mk_ivl (wrap32 l) (wrap32 h)).
(* convolve, deconvolve with a value, 441-483 *)
Definition ivl_convolve_v (i : ivl) (v : Z) : outcome ivl :=
  try l <- chk (lo i + v); try h <- chk (hi i + v); Ok (mk_ivl l h).
Definition ivl_deconvolve_v (i : ivl) (v : Z) : outcome ivl :=
  try l <- chk (lo i - v); try h <- chk (hi i - v); Ok (mk_ivl l h).
(* with an interval, 485-579 *)
Definition ivl_convolve (i j : ivl) : outcome ivl :=
  try l <- chk (lo i + lo j); try h <- chk (hi i + hi j); Ok (mk_ivl l h).
Definition ivl_deconvolve (i j : ivl) : outcome ivl :=
  try l <- chk (lo i - lo j); try h <- chk (hi i - hi j); Ok (mk_ivl l h).
Definition ivl_reflected_convolve (i j : ivl) : outcome ivl :=
  try l <- chk (lo i - hi j); try h <- chk (hi i - lo j); Ok (mk_ivl l h).
Definition ivl_reflected_deconvolve (i j : ivl) : outcome ivl :=
  try l <- chk (lo i + hi j); try h <- chk (hi i + lo j); Ok (mk_ivl l h).
(* dist[k] of an array of three; 3 is out of bounds *)
Definition pick3 (d0 d1 d2 : Z) (k : Z) : outcome Z :=
  if k =? 0 then Ok d0 else if k =? 1 then Ok d1 else if k =? 2 then Ok d2 else Undefined.
(* euclidean_distance to a value, 581-601 *)
Definition ivl_dist_v (i : ivl) (v : Z) : outcome Z :=
  try d1 <- chk64 (lo i - v);
  try d2 <- chk64 (v - hi i);
  pick3 0 d1 d2 (b2z (d1 >? 0) + Z.shiftl (b2z (d2 >? 0)) 1).
(* to an interval, 603-627 *)
Definition ivl_dist (i j : ivl) : outcome Z :=
  try d1 <- chk64 (lo i - hi j);
  try d2 <- chk64 (lo j - hi i);
  pick3 0 d1 d2 (b2z (d1 >? 0) + Z.shiftl (b2z (d2 >? 0)) 1).
(* intersects, 629-652 *)
Definition intersects_i (i j : ivl) (touch : bool) : bool :=
  if touch then (lo i <=? hi j) && (hi i >=? lo j) else (lo i <? hi j) && (hi i >? lo j).
(* boundaries_intersect, 654-676 *)
Definition boundaries_intersect_i (i j : ivl) (touch : bool) : bool :=
  (contains_v i (lo j) touch || contains_v i (hi j) touch) &&
  (contains_v j (lo i) touch || contains_v j (hi i) touch).
(* intersect, 678-705: the return value and the new interval *)
Definition intersect_i (i j : ivl) (touch : bool) : bool * ivl :=
  let l := Z.max (lo i) (lo j) in
  let h := Z.min (hi i) (hi j) in
  if (if touch then l <=? h else l <? h) then (true, mk_ivl l h) else (false, i).
(* generalized_intersect, 707-733: polygon_sort of four coordinates *)
Fixpoint zinsert (z : Z) (l : list Z) : list Z :=
  match l with [] => [z] | w :: l' => if z <=? w then z :: l else w :: zinsert z l' end.
Fixpoint zsort (l : list Z) : list Z :=
  match l with [] => [] | z :: l' => zinsert z (zsort l') end.
Definition generalized_intersect_i (i j : ivl) : ivl :=
  let c := zsort [lo i; hi i; lo j; hi j] in
  mk_ivl (nth 1 c 0) (nth 2 c 0).
(* abuts, 735-776 *)
Definition abuts_dir_i (i j : ivl) (high : bool) : bool :=
  if high then lo j =? hi i else lo i =? hi j.
Definition abuts_i (i j : ivl) : bool := abuts_dir_i i j true || abuts_dir_i i j false.
(* bloat, 778-814; get_sign of HIGH is 1, of LOW is -1 *)
Definition ivl_bloat (i : ivl) (b : Z) : outcome ivl :=
  try l <- chk (lo i - b); try h <- chk (hi i + b); Ok (mk_ivl l h).
Definition ivl_bloat_dir (i : ivl) (high : bool) (b : Z) : outcome ivl :=
  try s <- chk ((if high then 1 else -1) * b);
  try v <- chk (ivl_get i high + s);
  Ok (ivl_set i high v).
(* shrink, 816-849 *)
Definition ivl_shrink (i : ivl) (b : Z) : outcome ivl := try m <- chk (- b); ivl_bloat i m.
Definition ivl_shrink_dir (i : ivl) (high : bool) (b : Z) : outcome ivl :=
  try m <- chk (- b); ivl_bloat_dir i high m.
(* encompass, 851-890 *)
Definition encompass_i (i j : ivl) : bool * ivl :=
  (negb (contains_i i j true), mk_ivl (Z.min (lo i) (lo j)) (Z.max (hi i) (hi j))).
Definition encompass_v (i : ivl) (v : Z) : bool * ivl :=
  (negb (contains_v i v true), mk_ivl (Z.min (lo i) v) (Z.max (hi i) v)).
(* get_half, 892-909 *)
Definition ivl_get_half (i : ivl) (high : bool) : outcome ivl :=
  try s <- chk (lo i + hi i);
  let c := Z.quot s 2 in
  Ok (ivl_make (if high then c else lo i) (if high then hi i else c)).
(* join_with, 911-930 *)
Definition join_with_i (i j : ivl) : bool * ivl :=
  if abuts_i i j then (true, snd (encompass_i i j)) else (false, i).

(* interval_data operator<, interval_data.hpp:88-93 *)
Definition ivl_less (i j : ivl) : bool :=
  if negb (lo i =? lo j) then lo i <? lo j else hi i <? hi j.
