(* Specification vocabulary for the Voronoi predicates. *)
From Verif Require Import Base Set90Spec GeoSpec.

(* Doubles as 64-bit patterns: sign, 11 exponent bits, 52 fraction bits. Values
   are counted in units of 2^-1074, the smallest positive double, so that every
   finite double is an integer. *)
Definition fmag (m : Z) : Z :=
  let e := m / 2 ^ 52 in let f := m mod 2 ^ 52 in
  if e =? 0 then f else (2 ^ 52 + f) * 2 ^ (e - 1).
Definition fval (bits : Z) : Z := if bits <? 2 ^ 63 then fmag bits else - fmag (bits - 2 ^ 63).
Definition finite (bits : Z) : Prop := 0 <= bits < 2 ^ 64 /\ (bits mod 2 ^ 63) / 2 ^ 52 < 2047.
Definition representable (v : Z) : Prop := exists bits, finite bits /\ fval bits = v.

(* twice the signed area of the triangle p q r *)
Definition det3 (p q r : point) : Z := (px q - px p) * (py r - py p) - (py q - py p) * (px r - px p).

(* A site event (detail/voronoi_structures.hpp:60-228): a point if the two points
   are equal, else a segment. *)
Record site : Type := mk_site { s_p0 : point; s_p1 : point }.
Definition is_point (s : site) : Prop := s_p0 s = s_p1 s.
Definition lex_before (p q : point) : Prop := px p < px q \/ px p = px q /\ py p < py q.
(* sites as the builder creates them: int coordinates, start before end *)
Definition site_ok (s : site) : Prop := pt_int (s_p0 s) /\ pt_int (s_p1 s) /\ (is_point s \/ lex_before (s_p0 s) (s_p1 s)).
(* two sites which the input may contain together: segments may share end points
   and may be equal, but segments leaving the same point overlap only if equal *)
Definition no_overlap (a b : site) : Prop :=
  s_p0 a = s_p0 b -> ~ is_point a -> ~ is_point b -> det3 (s_p0 a) (s_p1 a) (s_p1 b) = 0 -> a = b.
