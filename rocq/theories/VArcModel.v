(* distance_predicate of detail/voronoi_predicates.hpp, in exact arithmetic *)
From Coq Require Import Reals ZArith.
From Verif Require Import Base Units Outcome Scan90Spec Set90Spec GeoSpec Poly90Model VorSpec VorModel VDModel RobustSpec RobustModel VCircleSpec VCircleModel.
Open Scope R_scope.

(* All fpt_type values are exact; None: a division by zero or a root of a negative
   number. robust_cross_product and orientation_test are exact ([xprod], [orient3];
   1 is LEFT, -1 is RIGHT). *)
Definition ltb (x y : R) : bool := if Rlt_dec x y then true else false.

(* find_distance_to_point_arc, 277-283 *)
Definition dist_point (s : sev) (p : point) : option R :=
  let dx := IZR (sx0 s) - IZR (px p) in
  let dy := IZR (sy0 s) - IZR (py p) in
  fdiv (dx * dx + dy * dy) (2 * dx).
(* find_distance_to_segment_arc, 285-312 *)
Definition dist_segment (s : sev) (p : point) : option R :=
  if sev_vertical s then Some ((IZR (sx0 s) - IZR (px p)) * (1 / 2))
  else
    let a1 := IZR (sx1 s) - IZR (sx0 s) in
    let b1 := IZR (sy1 s) - IZR (sy0 s) in
    do k <- fsqrt (a1 * a1 + b1 * b1);
    do k <- (if negb (is_neg b1) then fdiv 1 (b1 + k) else fdiv (k - b1) (a1 * a1));
    Some (k * IZR (xprod (sx1 s - sx0 s) (sy1 s - sy0 s) (px p - sx0 s) (py p - sy0 s))).

(* pp, 224-247 *)
Definition dist_pp (l r : sev) (p : point) : option bool :=
  let cmp := do d1 <- dist_point l p; do d2 <- dist_point r p; Some (ltb d1 d2) in
  if (sx0 l >? sx0 r)%Z then (if (py p <=? sy0 l)%Z then Some false else cmp)
  else if (sx0 l <? sx0 r)%Z then (if (py p >=? sy0 r)%Z then Some true else cmp)
  else Some (sy0 l + sy0 r <? py p * 2)%Z.

(* fast_ps, 314-365: LESS is Some true, MORE is Some false, UNDEFINED is None; the
   ulp_cmp of 357 is the comparison of the exact values *)
Definition fast_ps (l r : sev) (p : point) (reverse_order : bool) : option bool :=
  if negb (orient3 (e_p0 r) (e_p1 r) p =? -1)%Z then Some (negb (e_inv r))
  else
    let dif_x := IZR (px p) - IZR (sx0 l) in
    let dif_y := IZR (py p) - IZR (sy0 l) in
    let a := IZR (sx1 r) - IZR (sx0 r) in
    let b := IZR (sy1 r) - IZR (sy0 r) in
    let fast :=
      let e1 := a * (dif_y + dif_x) * (dif_y - dif_x) in
      let e2 := 2 * b * dif_x * dif_y in
      if ltb e1 e2 || ltb e2 e1 then
        if xorb (ltb e2 e1) reverse_order then Some reverse_order else None
      else None in
    if sev_vertical r then
      if (py p <? sy0 l)%Z && negb reverse_order then Some false
      else if (py p >? sy0 l)%Z && reverse_order then Some true
      else None
    else
      if (0 <? xprod (sx1 r - sx0 r) (sy1 r - sy0 r) (px p - sx0 l) (py p - sy0 l))%Z then
        if negb (e_inv r) then (if reverse_order then Some true else None)
        else (if reverse_order then None else Some false)
      else fast.
(* ps, 249-262: [l] is the point, [r] the segment *)
Definition dist_ps (l r : sev) (p : point) (reverse_order : bool) : option bool :=
  match fast_ps l r p reverse_order with
  | Some v => Some v
  | None => do d1 <- dist_point l p; do d2 <- dist_segment r p; Some (xorb reverse_order (ltb d1 d2))
  end.
(* ss, 264-275 *)
Definition dist_ss (l r : sev) (p : point) : option bool :=
  if Nat.eqb (e_sorted l) (e_sorted r) then Some (orient3 (e_p0 l) (e_p1 l) p =? 1)%Z
  else do d1 <- dist_segment l p; do d2 <- dist_segment r p; Some (ltb d1 d2).
(* operator(), 194-209 *)
Definition distance_predicate (l r : sev) (p : point) : option bool :=
  if negb (sev_segment l) then
    if negb (sev_segment r) then dist_pp l r p else dist_ps l r p false
  else
    if negb (sev_segment r) then dist_ps r l p true else dist_ss l r p.
