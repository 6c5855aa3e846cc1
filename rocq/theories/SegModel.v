(* Model of segment_concept.hpp and segment_data.hpp for int coordinates. Both
   area types are 64 bits wide (isotropy.hpp). *)
From Verif Require Import Base Scan90Spec Set90Spec Set90Model GeoSpec IvlModel RectModel.

(* unsigned 64-bit product *)
Definition umul64 (a b : Z) : Z := (a * b) mod 2 ^ 64.
(* orientation of two segments, 303-329: differences in long long, products in
   unsigned long long *)
Definition seg_orientation (s1 s2 : seg) : outcome Z :=
  try a1 <- chk64 (px (s_high s1) - px (s_low s1));
  try b1 <- chk64 (py (s_high s1) - py (s_low s1));
  try a2 <- chk64 (px (s_high s2) - px (s_low s2));
  try b2 <- chk64 (py (s_high s2) - py (s_low s2));
  let sign1 := if negb (a1 =? 0) && negb (b2 =? 0) then (if xorb (a1 >? 0) (b2 >? 0) then -1 else 1) else 0 in
  let sign2 := if negb (a2 =? 0) && negb (b1 =? 0) then (if xorb (a2 >? 0) (b1 >? 0) then -1 else 1) else 0 in
  if negb (sign1 =? sign2) then Ok (if sign1 <? sign2 then -1 else 1)
  else
    try a1' <- chk64 (if a1 <? 0 then - a1 else a1);
    try b2' <- chk64 (if b2 <? 0 then - b2 else b2);
    try b1' <- chk64 (if b1 <? 0 then - b1 else b1);
    try a2' <- chk64 (if a2 <? 0 then - a2 else a2);
    let a3 := umul64 a1' b2' in
    let b3 := umul64 b1' a2' in
    if a3 =? b3 then Ok 0
    else Ok (if xorb (a3 <? b3) (sign1 =? 1) then 1 else -1).
(* orientation of a point, 345-348 *)
Definition seg_orientation_pt (s : seg) (p : point) : outcome Z :=
  seg_orientation s (mk_seg (s_high s) p).
(* contains point, 363-376 *)
Definition seg_contains_pt (s : seg) (p : point) (touch : bool) : outcome bool :=
  try o <- seg_orientation_pt s p;
  if negb (o =? 0) then Ok false
  else if negb (r_contains_pt (r_set_points (s_low s) (s_high s)) p true) then Ok false
  else if negb touch && (pt_eqb (s_low s) p || pt_eqb (s_high s) p) then Ok false
  else Ok true.
(* contains segment, 391-395: && is lazy, which only matters for undefined
   behaviour *)
Definition seg_contains (s1 s2 : seg) (touch : bool) : outcome bool :=
  try a <- seg_contains_pt s1 (s_low s2) touch;
  if a then seg_contains_pt s1 (s_high s2) touch else Ok false.
(* center, 249-253: int arithmetic *)
Definition seg_center (s : seg) : outcome point :=
  try x <- chk (px (s_high s) + px (s_low s));
  try y <- chk (py (s_high s) + py (s_low s));
  Ok (mk_pt (Z.quot x 2) (Z.quot y 2)).
(* scale_up 422-431, scale_down 443-452, scale 464-470, transform 482-488, move
   500-507, convolve 522-528, deconvolve 543-549: the point operation on both
   end points *)
Definition seg_map (f : point -> outcome point) (s : seg) : outcome seg :=
  try l <- f (s_low s); try h <- f (s_high s); Ok (mk_seg l h).
Definition seg_scale_up (s : seg) (k : Z) : outcome seg := seg_map (fun p => pt_scale_up p k) s.
Definition seg_scale_down (s : seg) (k : Z) : outcome seg := seg_map (fun p => Ok (pt_scale_down p k)) s.
Definition seg_transform (f : Z * Z -> outcome (Z * Z)) (s : seg) : outcome seg := seg_map (pt_map f) s.
Definition seg_move (s : seg) (o : orient) (d : Z) : outcome seg := seg_map (fun p => pt_move p o d) s.
Definition seg_convolve (s : seg) (v : point) : outcome seg := seg_map (fun p => pt_convolve p v) s.
Definition seg_deconvolve (s : seg) (v : point) : outcome seg := seg_map (fun p => pt_deconvolve p v) s.
(* abuts, 564-585 *)
Definition seg_abuts_dir (s1 s2 : seg) (high : bool) : bool :=
  if high then pt_eqb (s_low s2) (s_high s1) else pt_eqb (s_low s1) (s_high s2).
Definition seg_abuts (s1 s2 : seg) : bool := seg_abuts_dir s1 s2 true || seg_abuts_dir s1 s2 false.
(* intersects, 601-623 *)
Definition seg_box (s : seg) : rect := r_set_points (s_low s) (s_high s).
Definition seg_intersects (s1 s2 : seg) (touch : bool) : outcome bool :=
  let r1 := seg_box s1 in
  let r2 := seg_box s2 in
  if negb (r_intersects r1 r2 true) then Ok false
  else
    try o11 <- seg_orientation_pt s1 (s_low s2);
    try o12 <- seg_orientation_pt s1 (s_high s2);
    if o11 * o12 >? 0 then Ok false
    else
      try o21 <- seg_orientation_pt s2 (s_low s1);
      try o22 <- seg_orientation_pt s2 (s_high s1);
      if o21 * o22 >? 0 then Ok false
      else if touch || (negb (o11 =? 0) && negb (o12 =? 0)) || (negb (o21 =? 0) && negb (o22 =? 0)) then Ok true
      else if negb (o11 =? 0) || negb (o12 =? 0) then Ok false
      else Ok (intersects_i (vertical r1) (vertical r2) false || intersects_i (horizontal r1) (horizontal r2) false).
(* euclidean_distance to a point, 639-664. The model returns the square of the
   result, with the floating-point operations in exact arithmetic; the two
   branches that measure the distance to an end point go through
   distance_squared in 64-bit integers. *)
Definition seg_dist_sq_pt (s : seg) (p : point) : outcome Q :=
  let A := px p - px (s_low s) in
  let B := py p - py (s_low s) in
  let C := px (s_high s) - px (s_low s) in
  let D := py (s_high s) - py (s_low s) in
  let param := A * C + B * D in
  let length_sq := C * C + D * D in
  if param >? length_sq then try d <- pt_dist_sq (s_high s) p; Ok (inject_Z d)
  else if param <? 0 then try d <- pt_dist_sq (s_low s) p; Ok (inject_Z d)
  else if length_sq =? 0 then Ok 0%Q
  else Ok ((inject_Z (A * D - C * B) * inject_Z (A * D - C * B)) / inject_Z length_sq)%Q.
(* euclidean_distance of two segments, 679-692: the square as well *)
Definition seg_dist_sq (s1 s2 : seg) : outcome Q :=
  try i <- seg_intersects s1 s2 true;
  if i then Ok 0%Q
  else
    try r1 <- seg_dist_sq_pt s1 (s_low s2);
    try r2 <- seg_dist_sq_pt s1 (s_high s2);
    try r3 <- seg_dist_sq_pt s2 (s_low s1);
    try r4 <- seg_dist_sq_pt s2 (s_high s1);
    let r1' := if Qlt_le_dec r2 r1 then r2 else r1 in
    let r3' := if Qlt_le_dec r4 r3 then r4 else r3 in
    Ok (if Qlt_le_dec r1' r3' then r1' else r3').
(* segment_data operator==, <, segment_data.hpp:81-96 *)
Definition seg_eqb (s t : seg) : bool := pt_eqb (s_low s) (s_low t) && pt_eqb (s_high s) (s_high t).
Definition seg_less (s t : seg) : bool :=
  if negb (pt_eqb (s_low s) (s_low t)) then pt_less (s_low s) (s_low t) else pt_less (s_high s) (s_high t).

(* envelope_segments, segment_utils.hpp:147-160: the return value and the
   rectangle (unchanged for an empty range) *)
Fixpoint envelope_loop (r : rect) (l : list seg) : rect :=
  match l with
  | [] => r
  | s :: l' => envelope_loop (snd (r_encompass_pt (snd (r_encompass_pt r (s_low s))) (s_high s))) l'
  end.
Definition envelope_segments (r : rect) (l : list seg) : bool * rect :=
  match l with
  | [] => (false, r)
  | s :: l' => (true, envelope_loop (r_set_points (s_low s) (s_high s)) l')
  end.
