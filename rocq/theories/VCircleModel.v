(* Model of the circle formation functors of detail/voronoi_predicates.hpp.
   Coordinates and the big integers are exact integers (extended_int: C34,
   robust_cross_product: C37). Floating point numbers are real numbers without
   rounding and without overflow; the square root of a negative number and a
   division by zero are None. How rounding changes sums of square roots and the
   tracking of errors that decides what is recomputed is C39; here what is
   recomputed is arbitrary. *)
From Coq Require Import Reals ZArith List.
From Verif Require Import Base Units Outcome Scan90Spec Set90Spec GeoSpec Poly90Model VorSpec VorModel VDModel RobustSpec RobustModel VCircleSpec.
Import ListNotations.
Open Scope R_scope.

Definition fdiv : R -> R -> option R := f_div (fun x => x).
Definition fsqrt : R -> option R := f_sqrt (fun x => x).
(* arrays of big integers *)
Definition arr (l : list Z) : nat -> Z := fun i => nth i l 0%Z.
Definition mem_of (A B : list Z) : mem := mk_mem (arr A) (arr B) (fun _ => 0%Z) (fun _ => 0%Z).
Definition ev1 (A B : list Z) : option R := eval1 (fun x => x) IZR (mem_of A B) (mk_ptr false 0).
Definition ev2 (A B : list Z) : option R := eval2 (fun x => x) IZR (mem_of A B) (mk_ptr false 0).
Definition ev3 (A B : list Z) : option R :=
  do v <- eval3 (fun x => x) IZR (mem_of A B) (mk_ptr false 0); Some (fst v).
Definition ev4 (A B : list Z) : option R :=
  do v <- eval4 (fun x => x) IZR (mem_of A B) (mk_ptr false 0); Some (fst v).

(* circle_event::x, y, lower_x, voronoi_structures.hpp:230-280 *)
Definition set_x (c : cevent) (v : R) : cevent := mk_cevent v (ev_y c) (ev_low c).
Definition set_y (c : cevent) (v : R) : cevent := mk_cevent (ev_x c) v (ev_low c).
Definition set_low (c : cevent) (v : R) : cevent := mk_cevent (ev_x c) (ev_y c) v.

(* x(), y(), x0() ... y1() of site_event, voronoi_structures.hpp:133-155 *)
Definition sx0 (s : sev) : Z := px (e_p0 s).
Definition sy0 (s : sev) : Z := py (e_p0 s).
Definition sx1 (s : sev) : Z := px (e_p1 s).
Definition sy1 (s : sev) : Z := py (e_p1 s).
(* robust_cross_product, 51-84, as an exact value *)
Definition xprod (a1 b1 a2 b2 : Z) : Z := (a1 * b2 - b1 * a2)%Z.

(* ---------- mp_circle_formation_functor ---------- *)
(* ppp, 535-601; [fx], [fy], [fl]: recompute_c_x, recompute_c_y,
   recompute_lower_x *)
Definition mp_ppp (s1 s2 s3 : sev) (c : cevent) (fx fy fl : bool) : option cevent :=
  let dif_x0 := (sx0 s1 - sx0 s2)%Z in let dif_x1 := (sx0 s2 - sx0 s3)%Z in let dif_x2 := (sx0 s1 - sx0 s3)%Z in
  let dif_y0 := (sy0 s1 - sy0 s2)%Z in let dif_y1 := (sy0 s2 - sy0 s3)%Z in let dif_y2 := (sy0 s1 - sy0 s3)%Z in
  let sum_x0 := (sx0 s1 + sx0 s2)%Z in let sum_x1 := (sx0 s2 + sx0 s3)%Z in
  let sum_y0 := (sy0 s1 + sy0 s2)%Z in let sum_y1 := (sy0 s2 + sy0 s3)%Z in
  do inv_denom <- fdiv (1 / 2) (IZR (dif_x0 * dif_y1 - dif_x1 * dif_y0)%Z);
  let numer1 := (dif_x0 * sum_x0 + dif_y0 * sum_y0)%Z in
  let numer2 := (dif_x1 * sum_x1 + dif_y1 * sum_y1)%Z in
  do c1 <- (if fx || fl then
      let c_x := (numer1 * dif_y1 - numer2 * dif_y0)%Z in
      let c' := set_x c (IZR c_x * inv_denom) in
      if fl then
        let sqr_r := ((dif_x0 * dif_x0 + dif_y0 * dif_y0) * (dif_x1 * dif_x1 + dif_y1 * dif_y1)
                      * (dif_x2 * dif_x2 + dif_y2 * dif_y2))%Z in
        do r <- fsqrt (IZR sqr_r);
        if negb (is_neg (ev_x c')) then
          Some (set_low c' (if negb (is_neg inv_denom) then ev_x c' + r * inv_denom else ev_x c' - r * inv_denom))
        else
          let numer := (c_x * c_x - sqr_r)%Z in
          do lower_x <- fdiv (IZR numer * inv_denom) (IZR c_x + r);
          Some (set_low c' lower_x)
      else Some c'
    else Some c);
  if fy then
    let c_y := (numer2 * dif_x0 - numer1 * dif_x1)%Z in
    Some (set_y c1 (IZR c_y * inv_denom))
  else Some c1.

(* pps, 603-697 *)
Definition mp_pps (s1 s2 s3 : sev) (segment_index : Z) (c : cevent) (fx fy fl : bool) : option cevent :=
  let line_a := (sy1 s3 - sy0 s3)%Z in let line_b := (sx0 s3 - sx1 s3)%Z in
  let segm_len := (line_a * line_a + line_b * line_b)%Z in
  let vec_x := (sy0 s2 - sy0 s1)%Z in let vec_y := (sx0 s1 - sx0 s2)%Z in
  let sum_x := (sx0 s1 + sx0 s2)%Z in let sum_y := (sy0 s1 + sy0 s2)%Z in
  let teta := (line_a * vec_x + line_b * vec_y)%Z in
  let denom := (vec_x * line_b - vec_y * line_a)%Z in
  let dif0 := (sy1 s3 - sy0 s1)%Z in let dif1 := (sx0 s1 - sx1 s3)%Z in
  let A := (line_a * dif1 - line_b * dif0)%Z in
  let dif0 := (sy1 s3 - sy0 s2)%Z in let dif1 := (sx0 s2 - sx1 s3)%Z in
  let B := (line_a * dif1 - line_b * dif0)%Z in
  let sum_AB := (A + B)%Z in
  if (denom =? 0)%Z then
    let numer := (teta * teta - sum_AB * sum_AB)%Z in
    let denom := (teta * sum_AB)%Z in
    let cA0 := (denom * sum_x * 2 + numer * vec_x)%Z in
    let cA1 := (denom * sum_AB * 2 + numer * teta)%Z in
    let cA2 := (denom * sum_y * 2 + numer * vec_y)%Z in
    do inv_denom <- fdiv 1 (IZR denom);
    let c1 := if fx then set_x c (1 / 4 * IZR cA0 * inv_denom) else c in
    let c2 := if fy then set_y c1 (1 / 4 * IZR cA2 * inv_denom) else c1 in
    if fl then
      do e <- ev2 [cA0; cA1] [segm_len; 1%Z];
      do q <- fsqrt (IZR segm_len);
      do l <- fdiv (1 / 4 * e * inv_denom) q;
      Some (set_low c2 l)
    else Some c2
  else
    let det := ((teta * teta + denom * denom) * A * B * 4)%Z in
    do inv_denom <- fdiv 1 (IZR denom);
    let inv_denom_sqr := inv_denom * inv_denom in
    let cA0 := (sum_x * denom * denom + teta * sum_AB * vec_x)%Z in
    let cA1 := if (segment_index =? 2)%Z then (- vec_x)%Z else vec_x in
    do c1 <- (if fx then do e <- ev2 [cA0; cA1] [1%Z; det]; Some (set_x c (1 / 2 * e * inv_denom_sqr)) else Some c);
    let cA2 := (sum_y * denom * denom + teta * sum_AB * vec_y)%Z in
    let cA3 := if (segment_index =? 2)%Z then (- vec_y)%Z else vec_y in
    do c2 <- (if fy then do e <- ev2 [cA2; cA3] [1%Z; det]; Some (set_y c1 (1 / 2 * e * inv_denom_sqr)) else Some c1);
    if fl then
      let cA2 := (sum_AB * (denom * denom + teta * teta))%Z in
      let cA3 := if (segment_index =? 2)%Z then (- teta)%Z else teta in
      do e <- ev4 [cA0; cA1; cA2; cA3] [(1 * segm_len)%Z; (det * segm_len)%Z; 1%Z; det];
      do q <- fsqrt (IZR segm_len);
      do l <- fdiv (1 / 2 * e * inv_denom_sqr) q;
      Some (set_low c2 l)
    else Some c2.

(* sqrt_expr_evaluator_pss3, 954-975 *)
Definition pss3 (A0 A1 A2 A3 B0 B1 B2 B3 : Z) : option R :=
  do lh <- ev2 [A0; A1] [B0; B1];
  do rh <- ev2 [A2; A3] [B2; B3];
  if same_side lh rh then Some (lh + rh)
  else
    let cA0 := (A0 * A0 * B0 + A1 * A1 * B1 - A2 * A2 - A3 * A3 * B0 * B1)%Z in
    let cA1 := ((A0 * A1 - A2 * A3) * 2)%Z in
    do numer <- ev2 [cA0; cA1] [1%Z; B3];
    fdiv numer (lh - rh).
(* sqrt_expr_evaluator_pss4, 913-952 *)
Definition pss4 (A0 A1 A2 A3 B0 B1 B2 B3 : Z) : option R :=
  if (A3 =? 0)%Z then
    do lh <- ev2 [A0; A1] [B0; B1];
    do e <- ev1 [A2] [B3];
    do i <- ev2 [1%Z; B2] [(B0 * B1)%Z; 1%Z];
    do q <- fsqrt i;
    let rh := e * q in
    if same_side lh rh then Some (lh + rh)
    else
      let cA0 := (A0 * A0 * B0 + A1 * A1 * B1 - A2 * A2 * B3 * B2)%Z in
      let cA1 := (A0 * A1 * 2 - A2 * A2 * B3)%Z in
      do numer <- ev2 [cA0; cA1] [1%Z; (B0 * B1)%Z];
      fdiv numer (lh - rh)
  else
    do e <- ev1 [A2] [B3];
    do i <- ev2 [1%Z; B2] [(B0 * B1)%Z; 1%Z];
    do q <- fsqrt i;
    let rh := e * q in
    do lh <- ev3 [A0; A1; A3] [B0; B1; 1%Z];
    if same_side lh rh then Some (lh + rh)
    else
      let cA0 := (A3 * A0 * 2)%Z in
      let cA1 := (A3 * A1 * 2)%Z in
      let cA2 := (A0 * A0 * B0 + A1 * A1 * B1 + A3 * A3 - A2 * A2 * B2 * B3)%Z in
      let cA3 := (A0 * A1 * 2 - A2 * A2 * B3)%Z in
      do numer <- pss3 cA0 cA1 cA2 cA3 B0 B1 1 (B0 * B1);
      fdiv numer (lh - rh).

(* pss, 699-830 *)
Definition mp_pss (s1 s2 s3 : sev) (point_index : Z) (c : cevent) (fx fy fl : bool) : option cevent :=
  let start1 := e_p1 s2 in let end1 := e_p0 s2 in
  let start2 := e_p0 s3 in let end2 := e_p1 s3 in
  let a0 := (px end1 - px start1)%Z in let b0 := (py end1 - py start1)%Z in
  let a1 := (px end2 - px start2)%Z in let b1 := (py end2 - py start2)%Z in
  let orientation := (a1 * b0 - a0 * b1)%Z in
  if (orientation =? 0)%Z then
    let denom := 2 * IZR (a0 * a0 + b0 * b0)%Z in
    let c0 := (b0 * (px start2 - px start1) - a0 * (py start2 - py start1))%Z in
    let dx := (a0 * (sy0 s1 - py start1) - b0 * (sx0 s1 - px start1))%Z in
    let dy := (b0 * (sx0 s1 - px start2) - a0 * (sy0 s1 - py start2))%Z in
    let cB0 := (dx * dy)%Z in
    do c1 <- (if fy then
        let cA0 := (b0 * (if (point_index =? 2)%Z then 2 else -2))%Z in
        let cA1 := (a0 * a0 * (py start1 + py start2) - a0 * b0 * (px start1 + px start2 - sx0 s1 * 2)
                    + b0 * b0 * (sy0 s1 * 2))%Z in
        do e <- ev2 [cA0; cA1] [cB0; 1%Z]; do v <- fdiv e denom; Some (set_y c v)
      else Some c);
    if fx || fl then
      let cA0 := (a0 * (if (point_index =? 2)%Z then 2 else -2))%Z in
      let cA1 := (b0 * b0 * (px start1 + px start2) - a0 * b0 * (py start1 + py start2 - sy0 s1 * 2)
                  + a0 * a0 * (sx0 s1 * 2))%Z in
      do c2 <- (if fx then do e <- ev2 [cA0; cA1] [cB0; 1%Z]; do v <- fdiv e denom; Some (set_x c1 v) else Some c1);
      if fl then
        let cA2 := if (c0 <? 0)%Z then (- c0)%Z else c0 in
        let cB2 := (a0 * a0 + b0 * b0)%Z in
        do e <- ev3 [cA0; cA1; cA2] [cB0; 1%Z; cB2];
        do v <- fdiv e denom;
        Some (set_low c2 v)
      else Some c2
    else Some c1
  else
    let c0 := (b0 * px end1 - a0 * py end1)%Z in
    let c1_ := (a1 * py end2 - b1 * px end2)%Z in
    let ix := (a0 * c1_ + a1 * c0)%Z in
    let iy := (b0 * c1_ + b1 * c0)%Z in
    let dx := (ix - orientation * sx0 s1)%Z in
    let dy := (iy - orientation * sy0 s1)%Z in
    if ((dx =? 0) && (dy =? 0))%Z then
      do c_x <- fdiv (IZR ix) (IZR orientation);
      do c_y <- fdiv (IZR iy) (IZR orientation);
      Some (mk_cevent c_x c_y c_x)
    else
      let sign := ((if (point_index =? 2)%Z then 1 else -1) * (if (orientation <? 0)%Z then 1 else -1))%Z in
      let cA0 := (a1 * - dx + b1 * - dy)%Z in
      let cA1 := (a0 * - dx + b0 * - dy)%Z in
      let cB0 := (a0 * a0 + b0 * b0)%Z in
      let cB1 := (a1 * a1 + b1 * b1)%Z in
      let cB2 := (a0 * a1 + b0 * b1)%Z in
      let cB3 := ((a0 * dy - b0 * dx) * (a1 * dy - b1 * dx) * -2)%Z in
      do temp <- pss4 cA0 cA1 sign 0 cB0 cB1 cB2 cB3;
      let denom := temp * IZR orientation in
      do c1 <- (if fy then
          let cA0 := (b1 * (dx * dx + dy * dy) - iy * (dx * a1 + dy * b1))%Z in
          let cA1 := (b0 * (dx * dx + dy * dy) - iy * (dx * a0 + dy * b0))%Z in
          do cy <- pss4 cA0 cA1 (iy * sign) 0 cB0 cB1 cB2 cB3;
          do v <- fdiv cy denom;
          Some (set_y c v)
        else Some c);
      if fx || fl then
        let cA0 := (a1 * (dx * dx + dy * dy) - ix * (dx * a1 + dy * b1))%Z in
        let cA1 := (a0 * (dx * dx + dy * dy) - ix * (dx * a0 + dy * b0))%Z in
        do c2 <- (if fx then
            do cx <- pss4 cA0 cA1 (ix * sign) 0 cB0 cB1 cB2 cB3;
            do v <- fdiv cx denom;
            Some (set_x c1 v)
          else Some c1);
        if fl then
          let cA3 := (orientation * (dx * dx + dy * dy) * (if is_neg temp then -1 else 1))%Z in
          do e <- pss4 cA0 cA1 (ix * sign) cA3 cB0 cB1 cB2 cB3;
          do v <- fdiv e denom;
          Some (set_low c2 v)
        else Some c2
      else Some c1.

(* sss, 832-910; the loops over i with j = i+1 and k = i+2 modulo 3 written out *)
Definition mp_sss (s1 s2 s3 : sev) (c : cevent) (fx fy fl : bool) : option cevent :=
  let a0 := (sx1 s1 - sx0 s1)%Z in let a1 := (sx1 s2 - sx0 s2)%Z in let a2 := (sx1 s3 - sx0 s3)%Z in
  let b0 := (sy1 s1 - sy0 s1)%Z in let b1 := (sy1 s2 - sy0 s2)%Z in let b2 := (sy1 s3 - sy0 s3)%Z in
  let c0 := (sx0 s1 * sy1 s1 - sy0 s1 * sx1 s1)%Z in
  let c1 := (sx0 s2 * sy1 s2 - sy0 s2 * sx1 s2)%Z in
  let c2 := (sx0 s3 * sy1 s3 - sy0 s3 * sx1 s3)%Z in
  let cB := [(a0 * a0 + b0 * b0)%Z; (a1 * a1 + b1 * b1)%Z; (a2 * a2 + b2 * b2)%Z] in
  do denom <- ev3 [(a1 * b2 - a2 * b1)%Z; (a2 * b0 - a0 * b2)%Z; (a0 * b1 - a1 * b0)%Z] cB;
  do e1 <- (if fy then
      do c_y <- ev3 [(b1 * c2 - b2 * c1)%Z; (b2 * c0 - b0 * c2)%Z; (b0 * c1 - b1 * c0)%Z] cB;
      do v <- fdiv c_y denom;
      Some (set_y c v)
    else Some c);
  if fx || fl then
    let cA0 := (a1 * c2 - a2 * c1)%Z in let cA1 := (a2 * c0 - a0 * c2)%Z in let cA2 := (a0 * c1 - a1 * c0)%Z in
    let cA3 := if fl then (0 + cA0 * b0 + cA1 * b1 + cA2 * b2)%Z else 0%Z in
    do e2 <- (if fx then
        do c_x <- ev3 [cA0; cA1; cA2] cB;
        do v <- fdiv c_x denom;
        Some (set_x e1 v)
      else Some e1);
    if fl then
      do e <- ev4 [cA0; cA1; cA2; cA3] (cB ++ [1%Z]);
      do v <- fdiv e denom;
      Some (set_low e2 v)
    else Some e2
  else Some e1.

(* ---------- lazy_circle_formation_functor ---------- *)
(* A robust_fpt is its value. A robust_dif is the value of its difference
   (C39: dif() is the exact expression). [fx], [fy], [fl]: whether the error of
   c_x, c_y, lower_x exceeds 64 units. *)
(* ppp, 996-1043 *)
Definition lazy_ppp (s1 s2 s3 : sev) (fx fy fl : bool) : option cevent :=
  let dif_x1 := IZR (sx0 s1) - IZR (sx0 s2) in let dif_x2 := IZR (sx0 s2) - IZR (sx0 s3) in
  let dif_y1 := IZR (sy0 s1) - IZR (sy0 s2) in let dif_y2 := IZR (sy0 s2) - IZR (sy0 s3) in
  let orientation := IZR (xprod (sx0 s1 - sx0 s2) (sx0 s2 - sx0 s3) (sy0 s1 - sy0 s2) (sy0 s2 - sy0 s3)) in
  do inv_orientation <- fdiv (1 / 2) orientation;
  let sum_x1 := IZR (sx0 s1) + IZR (sx0 s2) in let sum_x2 := IZR (sx0 s2) + IZR (sx0 s3) in
  let sum_y1 := IZR (sy0 s1) + IZR (sy0 s2) in let sum_y2 := IZR (sy0 s2) + IZR (sy0 s3) in
  let dif_x3 := IZR (sx0 s1) - IZR (sx0 s3) in let dif_y3 := IZR (sy0 s1) - IZR (sy0 s3) in
  let c_x := 0 + dif_x1 * sum_x1 * dif_y2 + dif_y1 * sum_y1 * dif_y2 - dif_x2 * sum_x2 * dif_y1 - dif_y2 * sum_y2 * dif_y1 in
  let c_y := 0 + dif_x2 * sum_x2 * dif_x1 + dif_y2 * sum_y2 * dif_x1 - dif_x1 * sum_x1 * dif_x2 - dif_y1 * sum_y1 * dif_x2 in
  do q <- fsqrt ((dif_x1 * dif_x1 + dif_y1 * dif_y1) * (dif_x2 * dif_x2 + dif_y2 * dif_y2)
                 * (dif_x3 * dif_x3 + dif_y3 * dif_y3));
  let lower_x := c_x - q in
  let e := mk_cevent (c_x * inv_orientation) (c_y * inv_orientation) (lower_x * inv_orientation) in
  if fx || fy || fl then mp_ppp s1 s2 s3 e fx fy fl else Some e.

(* pps, 1045-1131 *)
Definition lazy_pps (s1 s2 s3 : sev) (segment_index : Z) (fx fy fl : bool) : option cevent :=
  let line_a := IZR (sy1 s3) - IZR (sy0 s3) in let line_b := IZR (sx0 s3) - IZR (sx1 s3) in
  let vec_x := IZR (sy0 s2) - IZR (sy0 s1) in let vec_y := IZR (sx0 s1) - IZR (sx0 s2) in
  let teta := IZR (xprod (sy1 s3 - sy0 s3) (sx0 s3 - sx1 s3) (sx0 s2 - sx0 s1) (sy0 s2 - sy0 s1)) in
  let A := IZR (xprod (sy0 s3 - sy1 s3) (sx0 s3 - sx1 s3) (sy1 s3 - sy0 s1) (sx1 s3 - sx0 s1)) in
  let B := IZR (xprod (sy0 s3 - sy1 s3) (sx0 s3 - sx1 s3) (sy1 s3 - sy0 s2) (sx1 s3 - sx0 s2)) in
  let denom := IZR (xprod (sy0 s1 - sy0 s2) (sx0 s1 - sx0 s2) (sy1 s3 - sy0 s3) (sx1 s3 - sx0 s3)) in
  do q <- fsqrt (line_a * line_a + line_b * line_b);
  do inv_segm_len <- fdiv 1 q;
  do t <- (if Req_EM_T denom 0 then
      do u <- fdiv teta (8 * A);
      do v <- fdiv A (2 * teta);
      Some (0 + u - v)
    else
      do det <- fsqrt ((teta * teta + denom * denom) * A * B);
      do u <- fdiv det (denom * denom);
      do v <- fdiv (teta * (A + B)) (2 * denom * denom);
      Some ((if (segment_index =? 2)%Z then 0 - u else 0 + u) + v));
  let c_x := 0 + 1 / 2 * (IZR (sx0 s1) + IZR (sx0 s2)) + vec_x * t in
  let c_y := 0 + 1 / 2 * (IZR (sy0 s1) + IZR (sy0 s2)) + vec_y * t in
  let r := 0 - line_a * IZR (sx0 s3) - line_b * IZR (sy0 s3) + line_a * c_x + line_b * c_y in
  let r := if is_neg r then - r else r in
  let lower_x := c_x + r * inv_segm_len in
  let e := mk_cevent c_x c_y lower_x in
  if fx || fy || fl then mp_pps s1 s2 s3 segment_index e fx fy fl else Some e.

(* pss, 1133-1329 *)
Definition lazy_pss (s1 s2 s3 : sev) (point_index : Z) (fx fy fl : bool) : option cevent :=
  let start1 := e_p1 s2 in let end1 := e_p0 s2 in
  let start2 := e_p0 s3 in let end2 := e_p1 s3 in
  let a1 := IZR (px end1) - IZR (px start1) in let b1 := IZR (py end1) - IZR (py start1) in
  let a2 := IZR (px end2) - IZR (px start2) in let b2 := IZR (py end2) - IZR (py start2) in
  let orientation := IZR (xprod (py end1 - py start1) (px end1 - px start1) (py end2 - py start2) (px end2 - px start2)) in
  do e <- (if Req_EM_T orientation 0 then
      let a := a1 * a1 + b1 * b1 in
      let c := IZR (xprod (py end1 - py start1) (px end1 - px start1) (py start2 - py start1) (px start2 - px start1)) in
      let det := IZR (xprod (px end1 - px start1) (py end1 - py start1) (sx0 s1 - px start1) (sy0 s1 - py start1))
                 * IZR (xprod (py end1 - py start1) (px end1 - px start1) (sy0 s1 - py start2) (sx0 s1 - px start2)) in
      let t := 0 - a1 * ((IZR (px start1) + IZR (px start2)) * (1 / 2) - IZR (sx0 s1))
                 - b1 * ((IZR (py start1) + IZR (py start2)) * (1 / 2) - IZR (sy0 s1)) in
      do q <- fsqrt det;
      let t := if (point_index =? 2)%Z then t + q else t - q in
      do t <- fdiv t a;
      let c_x := 0 + 1 / 2 * (IZR (px start1) + IZR (px start2)) + a1 * t in
      let c_y := 0 + 1 / 2 * (IZR (py start1) + IZR (py start2)) + b1 * t in
      do qa <- fsqrt a;
      do h <- fdiv (1 / 2 * c) qa;
      let lower_x := if is_neg c then c_x - h else c_x + h in
      Some (mk_cevent c_x c_y lower_x)
    else
      do sqr_sum1 <- fsqrt (a1 * a1 + b1 * b1);
      do sqr_sum2 <- fsqrt (a2 * a2 + b2 * b2);
      let a := IZR (xprod (px end1 - px start1) (py end1 - py start1) (py start2 - py end2) (px end2 - px start2)) in
      do a <- (if negb (is_neg a) then Some (a + sqr_sum1 * sqr_sum2)
               else fdiv (orientation * orientation) (sqr_sum1 * sqr_sum2 - a));
      let or1 := IZR (xprod (py end1 - py start1) (px end1 - px start1) (py end1 - sy0 s1) (px end1 - sx0 s1)) in
      let or2 := IZR (xprod (px end2 - px start2) (py end2 - py start2) (px end2 - sx0 s1) (py end2 - sy0 s1)) in
      let det := 2 * a * or1 * or2 in
      let c1 := IZR (xprod (py end1 - py start1) (px end1 - px start1) (py end1) (px end1)) in
      let c2 := IZR (xprod (px end2 - px start2) (py end2 - py start2) (px end2) (py end2)) in
      do inv_orientation <- fdiv 1 orientation;
      let ix := 0 + a2 * c1 * inv_orientation + a1 * c2 * inv_orientation in
      let iy := 0 + b1 * c2 * inv_orientation + b2 * c1 * inv_orientation in
      let b := 0 + ix * (a1 * sqr_sum2) + ix * (a2 * sqr_sum1) + iy * (b1 * sqr_sum2) + iy * (b2 * sqr_sum1)
        - sqr_sum1 * IZR (xprod (px end2 - px start2) (py end2 - py start2) (- sy0 s1) (sx0 s1))
        - sqr_sum2 * IZR (xprod (px end1 - px start1) (py end1 - py start1) (- sy0 s1) (sx0 s1)) in
      let t := 0 - b in
      do q <- fsqrt det;
      let t := if (point_index =? 2)%Z then t + q else t - q in
      do t <- fdiv t (a * a);
      let c_x := ix + t * (a1 * sqr_sum2) + t * (a2 * sqr_sum1) in
      let c_y := iy + t * (b1 * sqr_sum2) + t * (b2 * sqr_sum1) in
      let t := if is_neg t then - t else t in
      let lower_x := if is_neg orientation then c_x - t * orientation else c_x + t * orientation in
      Some (mk_cevent c_x c_y lower_x));
  if fx || fy || fl then mp_pss s1 s2 s3 point_index e fx fy fl else Some e.

(* sss, 1331-1423 *)
Definition lazy_sss (s1 s2 s3 : sev) (fx fy fl : bool) : option cevent :=
  let a1 := IZR (sx1 s1) - IZR (sx0 s1) in let b1 := IZR (sy1 s1) - IZR (sy0 s1) in
  let c1 := IZR (xprod (sx0 s1) (sy0 s1) (sx1 s1) (sy1 s1)) in
  let a2 := IZR (sx1 s2) - IZR (sx0 s2) in let b2 := IZR (sy1 s2) - IZR (sy0 s2) in
  let c2 := IZR (xprod (sx0 s2) (sy0 s2) (sx1 s2) (sy1 s2)) in
  let a3 := IZR (sx1 s3) - IZR (sx0 s3) in let b3 := IZR (sy1 s3) - IZR (sy0 s3) in
  let c3 := IZR (xprod (sx0 s3) (sy0 s3) (sx1 s3) (sy1 s3)) in
  do len1 <- fsqrt (a1 * a1 + b1 * b1);
  do len2 <- fsqrt (a2 * a2 + b2 * b2);
  do len3 <- fsqrt (a3 * a3 + b3 * b3);
  let cross_12 := IZR (xprod (sx1 s1 - sx0 s1) (sy1 s1 - sy0 s1) (sx1 s2 - sx0 s2) (sy1 s2 - sy0 s2)) in
  let cross_23 := IZR (xprod (sx1 s2 - sx0 s2) (sy1 s2 - sy0 s2) (sx1 s3 - sx0 s3) (sy1 s3 - sy0 s3)) in
  let cross_31 := IZR (xprod (sx1 s3 - sx0 s3) (sy1 s3 - sy0 s3) (sx1 s1 - sx0 s1) (sy1 s1 - sy0 s1)) in
  let denom := 0 + cross_12 * len3 + cross_23 * len1 + cross_31 * len2 in
  let r := 0 - cross_12 * c3 - cross_23 * c1 - cross_31 * c2 in
  let c_x := 0 + a1 * c2 * len3 - a2 * c1 * len3 + a2 * c3 * len1 - a3 * c2 * len1 + a3 * c1 * len2 - a1 * c3 * len2 in
  let c_y := 0 + b1 * c2 * len3 - b2 * c1 * len3 + b2 * c3 * len1 - b3 * c2 * len1 + b3 * c1 * len2 - b1 * c3 * len2 in
  let lower_x := c_x + r in
  do vx <- fdiv c_x denom;
  do vy <- fdiv c_y denom;
  do vl <- fdiv lower_x denom;
  let e := mk_cevent vx vy vl in
  if fx || fy || fl then mp_sss s1 s2 s3 e fx fy fl else Some e.

(* ---------- circle_existence_predicate, 461-525 ---------- *)
(* orientation_test::eval of three points, 86-113, as an exact sign: negative is
   RIGHT *)
Definition orient3 (p q r : point) : Z :=
  Z.sgn (xprod (px p - px q) (px q - px r) (py p - py q) (py q - py r)).
Definition right3 (p q r : point) : bool := (orient3 p q r =? -1)%Z.
Definition pt_same (p q : point) : bool := ((px p =? px q) && (py p =? py q))%Z.
Definition ex_ppp (s1 s2 s3 : sev) : bool := right3 (e_p0 s1) (e_p0 s2) (e_p0 s3).
Definition ex_pps (s1 s2 s3 : sev) (segment_index : Z) : bool :=
  if negb (segment_index =? 2)%Z then
    let orient1 := right3 (e_p0 s1) (e_p0 s2) (e_p0 s3) in
    let orient2 := right3 (e_p0 s1) (e_p0 s2) (e_p1 s3) in
    if ((segment_index =? 1) && (sx0 s1 >=? sx0 s2))%Z then orient1
    else if ((segment_index =? 3) && (sx0 s2 >=? sx0 s1))%Z then orient2
    else orient1 || orient2
  else negb (pt_same (e_p0 s3) (e_p0 s1)) || negb (pt_same (e_p1 s3) (e_p0 s2)).
Definition ex_pss (s1 s2 s3 : sev) (point_index : Z) : bool :=
  if Nat.eqb (e_sorted s2) (e_sorted s3) then false
  else if (point_index =? 2)%Z then
    if negb (e_inv s2) && e_inv s3 then false
    else if Bool.eqb (e_inv s2) (e_inv s3) && negb (right3 (e_p0 s2) (e_p0 s1) (e_p1 s3)) then false
    else true
  else true.
Definition ex_sss (s1 s2 s3 : sev) : bool :=
  negb (Nat.eqb (e_sorted s1) (e_sorted s2)) && negb (Nat.eqb (e_sorted s2) (e_sorted s3)).

(* ---------- circle_formation_predicate, 1425-1526 ---------- *)
(* [less], [more]: ulp_cmp(a, b, 64) is LESS, MORE. The functor is the lazy one;
   [flags]: what it recomputes. The result is None where the arithmetic fails,
   otherwise the circle or nothing. *)
Section Formation.
Variables less more : R -> R -> bool.
Variables fx fy fl : bool.

(* lies_outside_vertical_segment, 1506-1516 *)
Definition outside_vertical (c : cevent) (s : sev) : bool :=
  if negb (sev_segment s) || negb (sev_vertical s) then false
  else
    let y0 := IZR (if e_inv s then sy1 s else sy0 s) in
    let y1 := IZR (if e_inv s then sy0 s else sy1 s) in
    less (ev_y c) y0 || more (ev_y c) y1.
(* operator(), 1440-1503 *)
Definition circle_formation (s1 s2 s3 : sev) : option (option cevent) :=
  let found (e : bool) (c : option cevent) : option (option cevent) :=
    if negb e then Some None
    else
      do c <- c;
      if outside_vertical c s1 || outside_vertical c s2 || outside_vertical c s3 then Some None else Some (Some c) in
  if negb (sev_segment s1) then
    if negb (sev_segment s2) then
      if negb (sev_segment s3) then found (ex_ppp s1 s2 s3) (lazy_ppp s1 s2 s3 fx fy fl)
      else found (ex_pps s1 s2 s3 3) (lazy_pps s1 s2 s3 3 fx fy fl)
    else
      if negb (sev_segment s3) then found (ex_pps s1 s3 s2 2) (lazy_pps s1 s3 s2 2 fx fy fl)
      else found (ex_pss s1 s2 s3 1) (lazy_pss s1 s2 s3 1 fx fy fl)
  else
    if negb (sev_segment s2) then
      if negb (sev_segment s3) then found (ex_pps s2 s3 s1 1) (lazy_pps s2 s3 s1 1 fx fy fl)
      else found (ex_pss s2 s1 s3 2) (lazy_pss s2 s1 s3 2 fx fy fl)
    else
      if negb (sev_segment s3) then found (ex_pss s3 s1 s2 3) (lazy_pss s3 s1 s2 3 fx fy fl)
      else found (ex_sss s1 s2 s3) (lazy_sss s1 s2 s3 fx fy fl).
End Formation.
