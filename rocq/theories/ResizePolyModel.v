(* Model of bloat, shrink and resize of polygon_90_set_data.hpp, which move the
   edges of the polygons of the set. The amounts of bloat and shrink are unsigned
   and converted to int; they are taken to be at most INT_MAX. *)
From Verif Require Import Base Units Outcome Scan90Spec IsoSpec Poly90Spec Poly90Model Set90Spec Set90Model PolyFormModel.

Definition set_if (c : bool) (v old : Z) : outcome Z := if c then chk v else Ok old.
(* modify_pt, 370-400; pt holds the value of current_pt when it is called *)
Definition modify_pt (w e s n : Z) (prev cur nxt : point) : outcome point :=
  try y1 <- set_if (px prev <? px cur) (py cur - s) (py cur);
  try y2 <- set_if (px cur <? px prev) (py cur + n) y1;
  try y3 <- set_if (px nxt <? px cur) (py cur + n) y2;
  try y4 <- set_if (px cur <? px nxt) (py cur - s) y3;
  try x1 <- set_if (py prev <? py cur) (px cur + e) (px cur);
  try x2 <- set_if (py cur <? py prev) (px cur - w) x1;
  try x3 <- set_if (py nxt <? py cur) (px cur - w) x2;
  try x4 <- set_if (py cur <? py nxt) (px cur + e) x3;
  Ok (mk_pt x4 y4).
(* the loop 410-415, 436-442: the changed points from poly[1] to the last but
   one, and the values of prev_pt and current_pt after it *)
Fixpoint mod_loop (w e s n : Z) (prev cur : point) (rest : list point) : outcome (list point * (point * point)) :=
  match rest with
  | [] => Ok ([], (prev, cur))
  | nxt :: rest' =>
      try q <- modify_pt w e s n prev cur nxt;
      try ' (l, pc) <- mod_loop w e s n cur nxt rest';
      Ok (q :: l, pc)
  end.
(* the last point and the first one, 416-421, 447-452 *)
Definition mod_ends (w e s n : Z) (p0 p1 : point) (r : list point * (point * point)) : outcome (list point) :=
  let '(mid, (prev, cur)) := r in
  try q <- modify_pt w e s n prev cur p0;
  try q0 <- modify_pt w e s n cur p0 p1;
  Ok (q0 :: mid ++ [q]).

(* remove_colinear_pts, 458-490 *)
Definition colinear (a b c : point) : bool :=
  ((px a =? px b) && (px a =? px c)) || ((py a =? py b) && (py a =? py c)).
(* one pass of the for loop, 468-478: the elements before itr2 in reverse order,
   the elements at itr, itr2 and what follows itr3 *)
Fixpoint rc_scan (kept : list point) (a b : point) (rest : list point) : list point * point * point :=
  match rest with
  | [] => (kept, a, b)
  | c :: rest' => if colinear a b c then rc_scan kept a c rest' else rc_scan (b :: kept) b c rest'
  end.
Definition rc_pass (l : list point) : list point :=
  match l with
  | [] => []
  | b :: rest =>
      let '(kept, a, b') := rc_scan [] (last rest b) b rest in
      if colinear a b' (hd b' (rev kept)) then rev kept else rev (b' :: kept)
  end.
(* the while loop, 460-488; one point or more is removed in every pass but the last one *)
Fixpoint rc_loop (fuel : nat) (l : list point) : option (list point) :=
  if (length l <? 4)%nat then Some l
  else match fuel with
  | O => None
  | S fuel' => let l' := rc_pass l in if (length l' =? length l)%nat then Some l' else rc_loop fuel' l'
  end.
Definition remove_colinear_pts (l : list point) : outcome (list point) := lift (rc_loop (length l) l).

(* resize_poly_up, 401-423; the result of remove_colinear_pts is not used *)
Definition resize_poly_up (w e s n : Z) (poly : list point) : outcome (list point) :=
  match poly with
  | p0 :: p1 :: rest =>
      try r <- mod_loop w e s n p0 p1 rest;
      try l <- mod_ends w e s n p0 p1 r;
      remove_colinear_pts l
  | _ => Undefined
  end.
(* resize_poly_down, 424-456; delta computes with long long. None: false is
   returned *)
Definition xs_delta (f : point -> Z) (p0 : point) (l : list point) : Z :=
  fold_left (fun m p => Z.max m (f p)) l (f p0) - fold_left (fun m p => Z.min m (f p)) l (f p0).
Definition resize_poly_down (w e s n : Z) (poly : list point) : outcome (option (list point)) :=
  match poly with
  | p0 :: p1 :: rest =>
      try r <- mod_loop w e s n p0 p1 rest;
      try sx <- chk (w + e);
      try ax <- chk (Z.abs sx);
      if xs_delta px p0 (p1 :: rest) <? ax then Ok None
      else
        try sy <- chk (n + s);
        try ay <- chk (Z.abs sy);
        if xs_delta py p0 (p1 :: rest) <? ay then Ok None
        else
          try l <- mod_ends w e s n p0 p1 r;
          try l' <- remove_colinear_pts l;
          Ok (if (4 <=? length l')%nat then Some l' else None)
  | _ => Undefined
  end.

(* iterator_geometry_to_set over view_as<polygon_90_concept> of a polygon_45_data,
   with winding_override: outer curves are taken to be COUNTERCLOCKWISE, holes
   CLOCKWISE with is_hole, the multiplier is 1 for both
   (iterator_geometry_to_set.hpp:97-119; view_of, polygon_traits.hpp:1626-1655) *)
Definition curve_vertices (o : orient) (l : list point) : outcome (list vertex) :=
  let ps := compact_to_points (points_to_compact l) in
  if match ps with [] => true | _ => false end || (length l <? 4)%nat then Ok []
  else match ps with
       | p0 :: p1 :: p2 :: rest => lift (igs_go o 1 p0 p1 p0 p1 p2 rest)
       | _ => Undefined
       end.
Definition ps_insert_curve (t : pset) (l : list point) : outcome pset :=
  try v <- curve_vertices (ps_orient t) l;
  Ok (ps_insert_range t v (ps_orient t)).
Fixpoint fold_outcome {A B : Type} (f : B -> A -> outcome B) (l : list A) (b : B) : outcome B :=
  match l with
  | [] => Ok b
  | a :: l' => try b' <- f b a; fold_outcome f l' b'
  end.

(* bloat, 492-540: the polygons of get are converted to points *)
Definition bloat_poly (w e s n : Z) (t : pset) (p : poly90) : outcome pset :=
  try o <- resize_poly_up w e s n (compact_to_points (p_outer p));
  try t1 <- ps_insert_curve t o;
  fold_outcome (fun t h =>
    try r <- resize_poly_down w e s n (compact_to_points h);
    match r with Some l => ps_insert_curve t l | None => Ok t end) (p_holes p) t1.
Definition ps_bloat (w e s n : Z) (t : pset) : outcome pset :=
  try ' (polys, t1) <- lift (ps_get_polygons false t);
  fold_outcome (bloat_poly w e s n) polys (ps_clear t1).
(* shrink, 542-615 *)
Definition shrink_poly (w e s n : Z) (t : pset) (p : poly90) : outcome pset :=
  try r <- resize_poly_down (- w) (- e) (- s) (- n) (compact_to_points (p_outer p));
  match r with
  | None => Ok t
  | Some o =>
      try t1 <- ps_insert_curve t o;
      fold_outcome (fun t h =>
        try l <- resize_poly_up (- w) (- e) (- s) (- n) (compact_to_points h);
        ps_insert_curve t l) (p_holes p) t1
  end.
Definition ps_shrink (w e s n : Z) (t : pset) : outcome pset :=
  try ' (polys, t1) <- lift (ps_get_polygons false t);
  fold_outcome (shrink_poly w e s n) polys (ps_clear t1).

(* resize, 888-918 *)
Definition ps_resize (w e s n : Z) (t : pset) : outcome pset :=
  try dx <- chk (- w);
  try dy <- chk (- s);
  try t1 <- ps_move dx dy t;
  try et <- chk (w + e);
  try nt <- chk (s + n);
  if xorb (et <? 0) (nt <? 0) then
    if et <? 0 then
      try m <- chk (- et);
      try t2 <- ps_shrink 0 m 0 0 t1;
      if negb (nt =? 0) then ps_bloat 0 0 0 nt t2 else Ok t2
    else
      try m <- chk (- nt);
      try t2 <- ps_shrink 0 0 0 m t1;
      if negb (et =? 0) then ps_bloat 0 et 0 0 t2 else Ok t2
  else if et <? 0 then
    try m <- chk (- et);
    try k <- chk (- nt);
    ps_shrink 0 m 0 k t1
  else ps_bloat 0 et 0 nt t1.

(* bloat and shrink in one direction, 655-675 *)
Definition ps_shrink_dir (d : dir) (a : Z) (t : pset) : outcome pset :=
  match d with
  | West => ps_shrink a 0 0 0 t
  | East => ps_shrink 0 a 0 0 t
  | South => ps_shrink 0 0 a 0 t
  | North => ps_shrink 0 0 0 a t
  end.
Definition ps_bloat_dir (d : dir) (a : Z) (t : pset) : outcome pset :=
  match d with
  | West => ps_bloat a 0 0 0 t
  | East => ps_bloat 0 a 0 0 t
  | South => ps_bloat 0 0 a 0 t
  | North => ps_bloat 0 0 0 a t
  end.
