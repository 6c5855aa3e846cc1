(* Specification of intervals, points, rectangles and segments: sets of points
   with rational coordinates. *)
From Verif Require Export Base Set90Spec.
From Coq Require Export QArith Qabs Lqa.
Global Open Scope Z_scope.

(* ---------- intervals ---------- *)
Record ivl : Type := mk_ivl { lo : Z; hi : Z }.
Definition ivl_ok (i : ivl) : Prop := lo i <= hi i.
Definition ivl_int (i : ivl) : Prop := is_int (lo i) /\ is_int (hi i).
(* the points of the closed (touch) or open interval *)
Definition in_ivl (touch : bool) (i : ivl) (q : Q) : Prop :=
  if touch then (inject_Z (lo i) <= q /\ q <= inject_Z (hi i))%Q
  else (inject_Z (lo i) < q /\ q < inject_Z (hi i))%Q.
(* d is the least distance of points of A and B *)
Definition least_dist (A B : Q -> Prop) (d : Q) : Prop :=
  (forall p q, A p -> B q -> (d <= Qabs (p - q))%Q) /\
  exists p q, A p /\ B q /\ (Qabs (p - q) == d)%Q.

(* the end points of an interval *)
Definition end_point (i : ivl) (v : Z) : Prop := v = lo i \/ v = hi i.
(* the hull of two intervals: the least closed interval around both *)
Definition hull (i j h : ivl) : Prop :=
  (forall q, in_ivl true i q \/ in_ivl true j q -> in_ivl true h q) /\
  (forall h', (forall q, in_ivl true i q \/ in_ivl true j q -> in_ivl true h' q) -> forall q, in_ivl true h q -> in_ivl true h' q).

(* ---------- points ---------- *)
(* the point as a point of the plane *)
Definition qpt (p : point) : Q * Q := (inject_Z (px p), inject_Z (py p)).
Definition same_pt (p q : Q * Q) : Prop := (fst p == fst q)%Q /\ (snd p == snd q)%Q.

(* ---------- rectangles (type rect, Set90Spec) ---------- *)
Definition horizontal (r : rect) : ivl := mk_ivl (xl r) (xh r).
Definition vertical (r : rect) : ivl := mk_ivl (yl r) (yh r).
Definition rect_int (r : rect) : Prop := is_int (xl r) /\ is_int (xh r) /\ is_int (yl r) /\ is_int (yh r).
Definition in_rectq (touch : bool) (r : rect) (q : Q * Q) : Prop :=
  in_ivl touch (horizontal r) (fst q) /\ in_ivl touch (vertical r) (snd q).
(* the boundary: the points of the closed rectangle that are not inner points *)
Definition on_boundary (r : rect) (q : Q * Q) : Prop :=
  in_rectq true r q /\ ~ in_rectq false r q.
Definition pos_area (r : rect) : Prop := xl r < xh r /\ yl r < yh r.

(* the least rectangle around two *)
Definition rect_hull (r s h : rect) : Prop :=
  (forall q, in_rectq true r q \/ in_rectq true s q -> in_rectq true h q) /\
  (forall h', (forall q, in_rectq true r q \/ in_rectq true s q -> in_rectq true h' q) ->
     forall q, in_rectq true h q -> in_rectq true h' q).
(* d is the least square of the Euclidean distance, the least Manhattan distance *)
Definition sq_dist (p q : Q * Q) : Q := ((fst p - fst q) * (fst p - fst q) + (snd p - snd q) * (snd p - snd q))%Q.
Definition l1_dist (p q : Q * Q) : Q := (Qabs (fst p - fst q) + Qabs (snd p - snd q))%Q.
Definition least_of (f : Q * Q -> Q * Q -> Q) (A B : Q * Q -> Prop) (d : Q) : Prop :=
  (forall p q, A p -> B q -> (d <= f p q)%Q) /\ exists p q, A p /\ B q /\ (f p q == d)%Q.
(* affine maps of the plane that keep axis-parallel lines axis-parallel *)
Record amap : Type := mk_amap { a_swap : bool; a_sx : Q; a_sy : Q; a_tx : Q; a_ty : Q }.
Definition amap_at (m : amap) (p : Q * Q) : Q * Q :=
  let (u, v) := if a_swap m then (snd p, fst p) else p in
  (a_sx m * u + a_tx m, a_sy m * v + a_ty m)%Q.
Definition amap_ok (m : amap) : Prop := ~ (a_sx m == 0)%Q /\ ~ (a_sy m == 0)%Q.

(* ---------- segments ---------- *)
Record seg : Type := mk_seg { s_low : point; s_high : point }.
Definition seg_int (s : seg) : Prop := pt_int (s_low s) /\ pt_int (s_high s).
(* the point low + t (high - low) of the line of the segment *)
Definition seg_at (s : seg) (t : Q) : Q * Q :=
  (inject_Z (px (s_low s)) + t * inject_Z (px (s_high s) - px (s_low s)),
   inject_Z (py (s_low s)) + t * inject_Z (py (s_high s) - py (s_low s)))%Q.
(* the points of the closed segment *)
Definition on_seg (s : seg) (q : Q * Q) : Prop :=
  exists t, (0 <= t /\ t <= 1)%Q /\ same_pt (seg_at s t) q.
(* an end point *)
Definition seg_end (s : seg) (q : Q * Q) : Prop := same_pt q (qpt (s_low s)) \/ same_pt q (qpt (s_high s)).
(* the cross product of the directions of two segments, and the side of a point *)
Definition cross (s t : seg) : Z :=
  (px (s_high s) - px (s_low s)) * (py (s_high t) - py (s_low t)) -
  (py (s_high s) - py (s_low s)) * (px (s_high t) - px (s_low t)).
Definition side (s : seg) (p : point) : Z := cross s (mk_seg (s_low s) p).
