(* Model of the predicates of scanline_base, detail/polygon_arbitrary_formation.hpp,
   for int coordinates. A half edge is a segment, s_low is its first point.

   less_point, 25-38, is pt_less; between, 40-45, equal_slope, 58-87, less_slope,
   88-130, and on_above_or_below, 132-143, are the same code as in edge_utils:
   eu_between, eu_equal_slope, eu_less_slope and eu_on_above_or_below (PolyModel.v).

   The floating-point operations of compute_intersection (long double, or the
   high precision type) are done in exact arithmetic; the conversions from
   floating point to int are checked. *)
From Verif Require Import Base Units Outcome Scan90Spec Poly90Spec Poly90Model Set90Spec Set90Model GeoSpec IvlModel RectModel SegModel PolyModel.

(* is_vertical 257-259, is_horizontal 261-263 *)
Definition sb_vertical (s : seg) : bool := px (s_low s) =? px (s_high s).
Definition sb_horizontal (s : seg) : bool := py (s_low s) =? py (s_high s).
(* on_above_or_below, 133 *)
Definition sb_oab (p : point) (s : seg) : Z := eu_on_above_or_below p (s_low s) (s_high s).
Definition sb_between (p : point) (s : seg) : bool := eu_between p (s_low s) (s_high s).

(* intersects, 672-729 *)
Definition sb_intersects (s1 s2 : seg) : bool :=
  let r1 := seg_box s1 in
  let r2 := seg_box s2 in
  let l1 := s_low s1 in let h1 := s_high s1 in
  let l2 := s_low s2 in let h2 := s_high s2 in
  if r_intersects r1 r2 false then
    if pt_eqb l1 l2 then negb (pt_eqb h1 h2) && eu_equal_slope l1 h1 h2
    else if pt_eqb l1 h2 then negb (pt_eqb h1 l2) && eu_equal_slope l1 h1 l2
    else if pt_eqb h1 l2 then negb (pt_eqb l1 h2) && eu_equal_slope h1 l1 h2
    else if pt_eqb h1 h2 then negb (pt_eqb l1 l2) && eu_equal_slope h1 l1 l2
    else
      let oab1 := sb_oab l1 s2 in
      if (oab1 =? 0) && sb_between l1 s2 then true
      else
        let oab2 := sb_oab h1 s2 in
        if (oab2 =? 0) && sb_between h1 s2 then true
        else if (oab1 =? oab2) && negb (oab1 =? 0) then false
        else
          let oab3 := sb_oab l2 s1 in
          if (oab3 =? 0) && sb_between l2 s1 then true
          else
            let oab4 := sb_oab h2 s1 in
            if (oab4 =? 0) && sb_between h2 s1 then true
            else if oab3 =? oab4 then false
            else true
  else if sb_vertical s1 && sb_vertical s2 && (px l1 =? px l2) then
    intersects_i (vertical r1) (vertical r2) false && negb (ivl_equiv (vertical r1) (vertical r2))
  else if sb_horizontal s1 && sb_horizontal s2 && (py l1 =? py l2) then
    intersects_i (horizontal r1) (horizontal r2) false && negb (ivl_equiv (horizontal r1) (horizontal r2))
  else false.

(* intersects_grid, 146-177 *)
Definition sb_grid (p : point) (s : seg) : outcome bool :=
  if pt_eqb p (s_high s) then Ok true
  else if pt_eqb p (s_low s) then Ok true
  else if negb (r_contains_pt (seg_box s) p true) then Ok false
  else if sb_vertical s || sb_horizontal s then Ok true
  else if eu_equal_slope p (s_low s) (s_high s) && sb_between p s then Ok true
  else
    try x1 <- chk (px p + 1);
    try y1 <- chk (py p + 1);
    let p01 := mk_pt (px p) y1 in
    let p10 := mk_pt x1 (py p) in
    let p11 := mk_pt x1 y1 in
    if sb_intersects (mk_seg p p11) s && negb (sb_oab p11 s =? 0) then Ok true
    else Ok (sb_intersects (mk_seg p01 p10) s && negb (sb_oab p01 s =? 0) && negb (sb_oab p10 s =? 0)).

(* conversion of the quotient n / d to int: towards zero, (Unit)x *)
Definition sb_trunc (n d : Z) : outcome Z := chk (Z.quot n d).
(* ... and downwards, as in 464-468: x_unit = (Unit)x; if(x < x_unit) --x_unit *)
Definition sb_floor (n d : Z) : outcome Z :=
  try t <- sb_trunc n d;
  if n / d <? t then chk (t - 1) else Ok t.
(* evalAtXforYlazy, 179-201: the result is converted to int, towards zero *)
Definition sb_eval_lazy (x : Z) (p other : point) : outcome Z :=
  if py p =? py other then Ok (py p)
  else if x - px p =? 0 then Ok (py p)
  else sb_trunc ((x - px p) * (py other - py p) + py p * (px other - px p)) (px other - px p).
(* evalAtXforY, 203-228, converted to int and rounded downwards, 513-515 *)
Definition sb_eval (x : Z) (p other : point) : outcome Z :=
  if py p =? py other then Ok (py p)
  else if x - px p =? 0 then Ok (py p)
  else sb_floor ((x - px p) * (py other - py p) + py p * (px other - px p)) (px other - px p).
(* the case of a vertical edge, 399-421 and 511-533; ev evaluates the other one *)
Definition sb_at_vertical (ev : Z -> point -> point -> outcome Z) (v o : seg) : outcome (option point) :=
  try y <- ev (px (s_low v)) (s_low o) (s_high o);
  Ok (if contains_v (vertical (seg_box v)) y true then Some (mk_pt (px (s_low v)) y) else None).
(* two edges that are not vertical, 432-467 and 544-581; the differences are
   computed in arithmetic [df] *)
Definition sb_crossing (df : Z -> outcome Z) (s1 s2 : seg) : outcome (option point) :=
  let l1 := s_low s1 in let h1 := s_high s1 in
  let l2 := s_low s2 in let h2 := s_high s2 in
  try dy2 <- df (py h2 - py l2);
  try dy1 <- df (py h1 - py l1);
  try dx2 <- df (px h2 - px l2);
  try dx1 <- df (px h1 - px l1);
  if dx1 * dy2 =? dx2 * dy1 then Ok None
  else
    let x_num := px l1 * dy1 * dx2 - px l2 * dy2 * dx1 + py l2 * dx1 * dx2 - py l1 * dx1 * dx2 in
    let x_den := dy1 * dx2 - dy2 * dx1 in
    let y_num := py l1 * dx1 * dy2 - py l2 * dx2 * dy1 + px l2 * dy1 * dy2 - px l1 * dy1 * dy2 in
    let y_den := dx1 * dy2 - dx2 * dy1 in
    try x <- sb_floor x_num x_den;
    try y <- sb_floor y_num y_den;
    let y := if sb_horizontal s1 then py l1 else y in
    let y := if sb_horizontal s2 then py l2 else y in
    let result := mk_pt x y in
    if negb (r_contains_pt (seg_box s1) result true) then Ok None
    else if negb (r_contains_pt (seg_box s2) result true) then Ok None
    else Ok (Some result).
Definition sb_crossing_of (ev : Z -> point -> point -> outcome Z) (df : Z -> outcome Z) (s1 s2 : seg) : outcome (option point) :=
  if negb (r_intersects (seg_box s1) (seg_box s2) true) then Ok None
  else if sb_vertical s1 then if sb_vertical s2 then Ok None else sb_at_vertical ev s1 s2
  else if sb_vertical s2 then sb_at_vertical ev s2 s1
  else sb_crossing df s1 s2.
(* compute_lazy_intersection, 391-483, not projected: the differences of the
   coordinates are differences of ints *)
Definition sb_lazy (s1 s2 : seg) : outcome (option point) := sb_crossing_of sb_eval_lazy chk s1 s2.
(* compute_exact_intersection, 502-590, not projected: the differences are
   computed in the high precision type *)
Definition sb_exact (s1 s2 : seg) : outcome (option point) :=
  if negb (sb_intersects s1 s2) then Ok None else sb_crossing_of sb_eval (fun d => Ok d) s1 s2.
(* compute_intersection, 485-500, not projected *)
Definition sb_compute_intersection (s1 s2 : seg) : outcome (option point) :=
  if negb (sb_intersects s1 s2) then Ok None
  else
    try lazy <- sb_lazy s1 s2;
    match lazy with
    | None => sb_exact s1 s2
    | Some p =>
        try g1 <- sb_grid p s1;
        try g <- (if g1 then sb_grid p s2 else Ok false);
        if g then Ok (Some p) else sb_exact s1 s2
    end.
