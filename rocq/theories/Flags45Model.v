(* Model of the cached state of polygon_45_set_data: the flags dirty_ and unsorted_ and the
   error data, polygon_45_set_data.hpp 30-240, 318-332, 540-610, 683-731, 1179-1236, 1534-1582
   and 1670-1703, for int coordinates. Where the sweep throws the outcome is Throw: what the
   code does then is Retry45Model. Methods that are const and change mutable members return
   the new state. [srt] is polygon_sort. *)
From Verif Require Import Base Units Outcome Scan90Spec Poly90Spec GeoSpec PolySpec Set90Spec ArbSpec Ins45Spec Ins45Model Scan45Model Bool45Spec Bool45Model Adapt45Model.

(* data_ and is_manhattan_, dirty_, unsorted_, error_data_ *)
Record cset : Type := mk_cset { c_set : set45; c_dirty : bool; c_unsorted : bool; c_err : list v45 }.
Definition c_data (s : cset) : list v45 := s_data (c_set s).
(* the default constructor, 37, and clear, 188 *)
Definition c_new : cset := mk_cset empty45 false false [].
Definition c_clear (s : cset) : cset := mk_cset (mk_set45 [] true) false false [].
(* insert of a rectangle, 622-632; of a polygon, 556-557; of a set, 560-577 *)
Definition c_insert_rect (hole : bool) (q : rect) (s : cset) : cset := mk_cset (insert_rect45 hole q (c_set s)) true true (c_err s).
Definition c_insert_poly (w : Z) (hole : bool) (g : gpoly) (s : cset) : outcome cset :=
  match insert_polygon45 w hole g (c_set s) with
  | Ok t => Ok (mk_cset t true true (c_err s))
  | Overflow => Overflow
  | Undefined => Undefined
  end.
Definition c_insert_set (hole : bool) (t s : cset) : cset := mk_cset (insert_set45 hole (c_set t) (c_set s)) true true (c_err s ++ c_err t).
(* sort, 213-218 *)
Definition c_sort (srt : list v45 -> list v45) (s : cset) : cset :=
  if c_unsorted s then mk_cset (mk_set45 (srt (c_data s)) (s_manhattan (c_set s))) (c_dirty s) false (c_err s) else s.
(* applyAdaptiveUnary_, 1670-1703 and 1777-1781: error_data_ is kept, the flags become false *)
Definition c_unary (srt : list v45 -> list v45) (o : self45) (s : cset) : res cset :=
  let s1 := if s_manhattan (c_set s) then s else c_sort srt s in
  run u <- self_set45 o (c_set s1) (c_data s1); Fine (mk_cset u false false (c_err s)).
(* clean, 1218-1225 *)
Definition c_clean (srt : list v45 -> list v45) (s : cset) : res cset :=
  let s1 := if c_unsorted s then c_sort srt s else s in
  if c_dirty s1 then run u <- c_unary srt SelfOr45 s1; Fine (mk_cset (c_set u) false (c_unsorted u) (c_err u)) else Fine s1.
(* self_intersect, self_xor, 319-332 *)
Definition c_self (srt : list v45 -> list v45) (o : self45) (s : cset) : res cset :=
  run u <- c_unary srt o (c_sort srt s); Fine (mk_cset (c_set u) false (c_unsorted u) (c_err u)).
(* operators &=, -=, ^=, 696-731, and applyAdaptiveBoolean_ 1227-1237, 1534-1582: the
   operands are sorted unless both are rectilinear *)
Definition c_bool (srt : list v45 -> list v45) (o : op45) (s t : cset) : res cset :=
  let both := s_manhattan (c_set s) && s_manhattan (c_set t) in
  let s1 := if both then s else c_sort srt s in
  let t1 := if both then t else c_sort srt t in
  run u <- op_set45 o (c_set s1) (c_set t1) (c_data s1) (c_data t1); Fine (mk_cset u false false (c_err s ++ c_err t)).
(* scale_up, 1179-1183: only data_ *)
Definition c_scale_up (k : Z) (s : cset) : cset := mk_cset (mk_set45 (map (scale45 k) (c_data s)) (s_manhattan (c_set s))) (c_dirty s) (c_unsorted s) (c_err s).
(* get_error_data, 157-159: p.data_ grows, the flags of p stay *)
Definition c_get_error_data (s p : cset) : cset := mk_cset (mk_set45 (c_data p ++ c_err s) (s_manhattan (c_set p))) (c_dirty p) (c_unsorted p) (c_err p).
(* error_count, 156 *)
Definition c_error_count (s : cset) : nat := Nat.div (length (c_err s)) 4.
(* set(value), 235-239: is_manhattan_ stays *)
Definition c_set_value (v : list v45) (s : cset) : cset := mk_cset (mk_set45 v (s_manhattan (c_set s))) true true (c_err s).
(* operator= of a rectangle, 75-80: data_.clear(); insert *)
Definition c_assign_rect (q : rect) (s : cset) : cset := c_insert_rect false q (mk_cset (mk_set45 [] (s_manhattan (c_set s))) (c_dirty s) (c_unsorted s) (c_err s)).
