(* Model of the free functions of polygon_90_set_concept.hpp on a
   polygon_90_set_data: area, bloat, shrink, resize, self_intersect, grow_and and
   keep, with 32-bit coordinates. The unsigned amounts are taken to be at most
   INT_MAX. *)
From Verif Require Import Base Units Outcome Scan90Spec IsoSpec Poly90Spec Poly90Model Set90Spec Set90Model GeoSpec RectModel RectFormModel PolyModel
  PolyFormModel ResizeSpec ResizePolyModel Free90Spec.

(* assign, 43-52, to an existing set, polygon_90_set_traits.hpp:304-315 *)
Definition ps_assign_to (target t : pset) : pset :=
  ps_insert_range (ps_clear target) (ps_data t) (ps_orient t).

(* assign to a vector or list of rectangles or polygons, polygon_90_set_traits.hpp:
   250-301; polygon_90_data cannot have holes, get_90_dispatch fractures them *)
Definition vector_clean (t : pset) : option pset :=
  ps_clean (ps_insert_range (ps_new (ps_orient t)) (ps_data t) (ps_orient t)).
Definition vector_rects (t : pset) : option (list rect) :=
  do s <- vector_clean t; form_rectangles (ps_orient t) (ps_data s).
Definition vector_polys (t : pset) : option (list poly90) :=
  do s <- vector_clean t; get_polygons true (ps_orient t) (ps_data s).

(* area, 151-163: manhattan_area_type is long long *)
Definition free_area (t : pset) : outcome Z :=
  try rs <- lift (vector_rects t);
  fold_outcome (fun a r => try d <- r_area r; chk64 (a + d)) rs 0.

(* bloat, 248-262; shrink, 304-318; the default constructor gives a HORIZONTAL set *)
Definition free_bloat (w e s n : Z) (t : pset) : outcome pset :=
  try p <- ps_bloat w e s n (ps_assign_set Horizontal t);
  try q <- lift (ps_clean p);
  Ok (ps_assign_to t q).
Definition free_shrink (w e s n : Z) (t : pset) : outcome pset :=
  try p <- ps_shrink w e s n (ps_assign_set Horizontal t);
  try q <- lift (ps_clean p);
  Ok (ps_assign_to t q).
(* resize by four amounts, 334-345 *)
Definition free_resize (w e s n : Z) (t : pset) : outcome pset :=
  try p <- ps_resize w e s n (ps_assign_set Horizontal t);
  Ok (ps_assign_to t p).
(* bloat and shrink by one amount, along an axis or in one direction, 206-246,
   264-302 *)
Definition free_bloat_all (a : Z) (t : pset) : outcome pset := free_bloat a a a a t.
Definition free_shrink_all (a : Z) (t : pset) : outcome pset := free_shrink a a a a t.
Definition free_bloat_axis (o : orient) (low high : Z) (t : pset) : outcome pset :=
  match o with Horizontal => free_bloat low high 0 0 t | Vertical => free_bloat 0 0 low high t end.
Definition free_shrink_axis (o : orient) (low high : Z) (t : pset) : outcome pset :=
  match o with Horizontal => free_shrink low high 0 0 t | Vertical => free_shrink 0 0 low high t end.
Definition free_bloat_dir (d : dir) (a : Z) (t : pset) : outcome pset :=
  match d with
  | East => free_bloat 0 a 0 0 t
  | West => free_bloat a 0 0 0 t
  | South => free_bloat 0 0 a 0 t
  | North => free_bloat 0 0 0 a t
  end.
Definition free_shrink_dir (d : dir) (a : Z) (t : pset) : outcome pset :=
  match d with
  | East => free_shrink 0 a 0 0 t
  | West => free_shrink a 0 0 0 t
  | South => free_shrink 0 0 a 0 t
  | North => free_shrink 0 0 0 a t
  end.
(* resize by one amount, 320-331 *)
Definition free_resize_all (r : Z) (t : pset) : outcome pset :=
  if r >? 0 then free_bloat_all r t
  else if r <? 0 then try m <- chk (- r); free_shrink_all m t
  else Ok t.

(* self_intersect, 182-191 *)
Definition free_self_intersect (t : pset) : option pset :=
  do p <- ps_self_intersect (ps_assign_set Horizontal t);
  Some (ps_assign_to t p).

(* grow_and, 386-408 *)
Definition grow_one (w e s n : Z) (o : orient) (ps : pset) (p : poly90) : outcome pset :=
  try tmp <- ps_insert_poly (ps_new o) p false;
  try tmp1 <- free_bloat w e s n tmp;
  try tmp2 <- lift (ps_clean tmp1);
  Ok (ps_insert_set false ps tmp2).
Definition free_grow_and (w e s n : Z) (t : pset) : outcome pset :=
  try polys <- lift (vector_polys t);
  let o := ps_orient t in
  try ps <- fold_outcome (grow_one w e s n o) polys (ps_new o);
  try ps1 <- lift (free_self_intersect ps);
  Ok (ps_assign_to (ps_clear t) ps1).

(* keep, 502-540. delta and area are long long, the comparisons are unsigned. *)
(* area of a polygon without holes, polygon_traits.hpp:1002-1023 *)
Definition ring_area (l : list Z) : outcome Z :=
  try a <- points_area (compact_to_points l);
  if a <? 0 then chk64 (a * -1) else Ok a.
Definition keep_test (lim : limits) (p : poly90) : outcome bool :=
  let box := snd (points_extents (mk_rect 0 0 0 0) (compact_to_points (p_outer p))) in
  try pwidth <- r_delta box Horizontal;
  if (pwidth >? min_width lim) && (pwidth <=? max_width lim) then
    try pheight <- r_delta box Vertical;
    if (pheight >? min_height lim) && (pheight <=? max_height lim) then
      try parea <- ring_area (p_outer p);
      Ok ((parea <=? max_area lim) && (parea >=? min_area lim))
    else Ok false
  else Ok false.
Fixpoint filter_outcome {A : Type} (f : A -> outcome bool) (l : list A) : outcome (list A) :=
  match l with
  | [] => Ok []
  | a :: l' => try b <- f a; try r <- filter_outcome f l'; Ok (if b then a :: r else r)
  end.
Definition free_keep (lim : limits) (t : pset) : outcome pset :=
  try polys <- lift (vector_polys t);
  try kept <- filter_outcome (keep_test lim) polys;
  match kept with
  | [] => Ok (ps_clear (ps_clear t))
  | _ => fold_outcome (fun s p => ps_insert_poly s p false) kept (mk_ps (ps_orient t) [] true true)
  end.
