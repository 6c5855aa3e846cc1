(* Model of the integer parts of the Voronoi predicates: ulp_comparison
   (voronoi_ctypes.hpp:38-68), the orientation test and the order of site
   events (voronoi_predicates.hpp:53-159), and the preparation of the site
   events (voronoi_builder.hpp:56-96, 168-186). *)
From Verif Require Import Base Scan90Spec Set90Spec Set90Model GeoSpec IvlModel RectModel XIntModel VorSpec.

(* ulp_comparison<fpt64>::operator(), 46-68, on the bit patterns of the doubles;
   -1, 0, 1 for LESS, EQUAL, MORE. maxUlps is an unsigned int, widened to 64 bits. *)
Definition ulp_ll (bits : Z) : Z := if bits <? 2 ^ 63 then u64 (2 ^ 63 - bits) else bits.
Definition ulp_comparison (a b maxUlps : Z) : Z :=
  let ll_a := ulp_ll a in let ll_b := ulp_ll b in
  if ll_a >? ll_b then (if u64 (ll_a - ll_b) <=? maxUlps then 0 else -1)
  else (if u64 (ll_b - ll_a) <=? maxUlps then 0 else 1).

(* static_cast<double> of a uint64 (type_converter_fpt, voronoi_ctypes.hpp:595-616):
   rounding to 53 bits, to nearest, ties to even. The doubles involved are
   integers and are represented by them. *)
Definition to_fpt (z : Z) : Z :=
  let e := Z.log2 z - 52 in
  if e <=? 0 then z
  else
    let q := z / 2 ^ e in let r := z mod 2 ^ e in
    if (2 * r >? 2 ^ e) || ((2 * r =? 2 ^ e) && Z.odd q) then (q + 1) * 2 ^ e else q * 2 ^ e.

(* robust_cross_product, voronoi_predicates.hpp:53-79; int_x2_type is int64 and
   uint_x2_type is uint64 *)
Definition abs64 (a : Z) : outcome Z := if a <? 0 then try m <- chk64 (- a); Ok (u64 m) else Ok (u64 a).
Definition robust_cross_product (a1_ b1_ a2_ b2_ : Z) : outcome Z :=
  try a1 <- abs64 a1_; try b1 <- abs64 b1_; try a2 <- abs64 a2_; try b2 <- abs64 b2_;
  let l := u64 (a1 * b2) in let r := u64 (b1 * a2) in
  Ok (if xorb (a1_ <? 0) (b2_ <? 0) then
        if xorb (a2_ <? 0) (b1_ <? 0) then
          if l >? r then - to_fpt (u64 (l - r)) else to_fpt (u64 (r - l))
        else - to_fpt (u64 (l + r))
      else
        if xorb (a2_ <? 0) (b1_ <? 0) then to_fpt (u64 (l + r))
        else if l <? r then - to_fpt (u64 (r - l)) else to_fpt (u64 (l - r))).
(* orientation_test::eval, 91-117: RIGHT -1, COLLINEAR 0, LEFT 1 *)
Definition ot_value (v : Z) : Z := if v =? 0 then 0 else if v <? 0 then -1 else 1.
Definition ot_difs (dx1 dy1 dx2 dy2 : Z) : outcome Z :=
  try v <- robust_cross_product dx1 dy1 dx2 dy2; Ok (ot_value v).
Definition ot_points (p q r : point) : outcome Z :=
  try dx1 <- chk64 (px p - px q); try dx2 <- chk64 (px q - px r);
  try dy1 <- chk64 (py p - py q); try dy2 <- chk64 (py q - py r);
  try v <- robust_cross_product dx1 dy1 dx2 dy2; Ok (ot_value v).

(* site_event::is_segment and operator==, voronoi_structures.hpp; is_vertical,
   voronoi_predicates.hpp:41-49 *)
Definition is_segment (s : site) : bool := negb (pt_eqb (s_p0 s) (s_p1 s)).
Definition site_eqb (a b : site) : bool := pt_eqb (s_p0 a) (s_p0 b) && pt_eqb (s_p1 a) (s_p1 b).
Definition is_vertical (s : site) : bool := px (s_p0 s) =? px (s_p1 s).
(* point_comparison_predicate, 120-130 *)
Definition point_before (p q : point) : bool := if px p =? px q then py p <? py q else px p <? px q.
(* event_comparison_predicate on two sites, 138-161 *)
Definition site_less (l r : site) : outcome bool :=
  if negb (px (s_p0 l) =? px (s_p0 r)) then Ok (px (s_p0 l) <? px (s_p0 r))
  else if negb (is_segment l) then
    if negb (is_segment r) then Ok (py (s_p0 l) <? py (s_p0 r))
    else if is_vertical r then Ok (py (s_p0 l) <=? py (s_p0 r))
    else Ok true
  else
    if is_vertical r then
      if is_vertical l then Ok (py (s_p0 l) <? py (s_p0 r)) else Ok false
    else if is_vertical l then Ok true
    else if negb (py (s_p0 l) =? py (s_p0 r)) then Ok (py (s_p0 l) <? py (s_p0 r))
    else try o <- ot_points (s_p1 l) (s_p0 l) (s_p1 r); Ok (o =? 1).

(* the sites pushed by insert_point and insert_segment, voronoi_builder.hpp:56-96;
   index and category are left out *)
Definition insert_point (p : point) : list site := [mk_site p p].
Definition insert_segment (p q : point) : list site :=
  [mk_site p p; mk_site q q; if point_before p q then mk_site p q else mk_site q p].
(* std::unique in init_sites_queue, 174-176; a is the element kept last *)
Fixpoint unique_from (a : site) (l : list site) : list site :=
  match l with
  | [] => [a]
  | b :: l' => if site_eqb a b then unique_from a l' else a :: unique_from b l'
  end.
Definition unique_sites (l : list site) : list site :=
  match l with [] => [] | a :: l' => unique_from a l' end.
