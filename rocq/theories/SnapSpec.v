(* What splitting segments at their intersections on the integer grid means. *)
From Verif Require Import Base Poly90Spec GeoSpec.
From Coq Require Import Reals.
Local Open Scope R_scope.

(* the points of the real plane on the closed segment *)
Definition on_r (s : seg) (x y : R) : Prop :=
  exists t, 0 <= t <= 1 /\
    x = IZR (px (s_low s)) + t * (IZR (px (s_high s)) - IZR (px (s_low s))) /\
    y = IZR (py (s_low s)) + t * (IZR (py (s_high s)) - IZR (py (s_low s))).
Definition at_r (p : point) (x y : R) : Prop := x = IZR (px p) /\ y = IZR (py p).
Definition end_r (s : seg) (x y : R) : Prop := at_r (s_low s) x y \/ at_r (s_high s) x y.
(* the same segment, perhaps in the other direction *)
Definition same_seg (s t : seg) : Prop := t = s \/ t = mk_seg (s_high s) (s_low s).
(* segments meet at common end points only, unless they are the same *)
Definition noded (l : list seg) : Prop :=
  forall s t x y, In s l -> In t l -> on_r s x y -> on_r t x y -> (end_r s x y /\ end_r t x y) \/ same_seg s t.
(* coordinates below the greatest int, differences of coordinates that fit in an int *)
Definition coord_fits (z : Z) : Prop := (- 2 ^ 31 <= z < 2 ^ 31 - 1)%Z.
Definition fits (s : seg) : Prop :=
  coord_fits (px (s_low s)) /\ coord_fits (py (s_low s)) /\ coord_fits (px (s_high s)) /\ coord_fits (py (s_high s)) /\
  (Z.abs (px (s_high s) - px (s_low s)) < 2 ^ 31)%Z /\ (Z.abs (py (s_high s) - py (s_low s)) < 2 ^ 31)%Z.
(* the ends in lexicographic order *)
Definition lex_lt (p q : point) : bool := ((px p <? px q) || ((px p =? px q) && (py p <? py q)))%Z.
Definition lo_end (s : seg) : point := if lex_lt (s_high s) (s_low s) then s_high s else s_low s.
Definition hi_end (s : seg) : point := if lex_lt (s_high s) (s_low s) then s_low s else s_high s.
(* consecutive pieces from p to q *)
Fixpoint path (p : point) (l : list seg) (q : point) : Prop :=
  match l with [] => p = q | s :: l' => s_low s = p /\ path (s_high s) l' q end.
(* the pieces of the i-th segment in a result, in their order *)
Definition pieces (i : Z) (out : list (seg * Z)) : list seg := map fst (filter (fun e => (snd e =? i)%Z) out).
(* (x', y') is less than one unit to the right of and above (x, y) *)
Definition within (x y x' y' : R) : Prop := 0 <= x' - x < 1 /\ 0 <= y' - y < 1.
(* v is (x, y) rounded: downwards, except that y may be rounded upwards on a grid line *)
Definition rounded (v : point) (x y : R) : Prop :=
  within (IZR (px v)) (IZR (py v)) x y \/ (x = IZR (px v) /\ IZR (py v) - 1 <= y < IZR (py v)).
