(* Model of bloat2 and shrink2 of polygon_90_set_data.hpp. The amounts are
   unsigned and converted to int; they are taken to be at most INT_MAX. *)
From Verif Require Import Base Scan90Spec Set90Spec Set90Model RectFormModel.

(* convolve(rectangle, rectangle), rectangle_concept.hpp:402-409, and
   interval_concept.hpp:499-506 *)
Definition rect_convolve (r c : rect) : outcome rect :=
  try a <- chk (xl r + xl c);
  try b <- chk (xh r + xh c);
  try d <- chk (yl r + yl c);
  try e <- chk (yh r + yh c);
  Ok (mk_rect a b d e).
(* bloat(rectangle, value), rectangle_concept.hpp:687-696 and
   interval_concept.hpp:789-795 *)
Definition rect_bloat (r : rect) (v : Z) : outcome rect :=
  try a <- chk (xl r - v);
  try b <- chk (xh r + v);
  try d <- chk (yl r - v);
  try e <- chk (yh r + v);
  Ok (mk_rect a b d e).

(* bloat2, 348-367 *)
Definition ps_bloat2 (w e s n : Z) (t : pset) : outcome pset :=
  try t1 <- lift (ps_clean t);
  try ' (rects, t2) <- lift (ps_get_rectangles t1);
  try rects2 <- map_rects (fun r => rect_convolve r (mk_rect (- w) e (- s) n)) rects;
  Ok (fold_left (fun acc r => ps_insert_rect acc r false) rects2 (ps_clear t2)).

(* shrink2, 617-652; [sort] is called although the set is dirty, and
   form_rectangles gets the sorted data as they are *)
Definition ps_shrink2 (w e s n : Z) (t : pset) : outcome pset :=
  try ' (ext, t1) <- lift (ps_extents t);
  match ext with
  | None => Ok t1
  | Some box0 =>
      try box <- rect_bloat box0 10;
      let t2 := ps_sort (ps_insert_rect t1 box true) in
      try rects <- lift (form_rectangles (ps_orient t2) (ps_data t2));
      let conv := mk_rect (- e) w (- n) s in
      try rects2 <- map_rects (fun r => rect_convolve r conv) rects;
      let t3 := fold_left (fun acc r => ps_insert_rect acc r true) rects2 (ps_clear t2) in
      try box2 <- rect_convolve box conv;
      lift (ps_clean (ps_insert_rect t3 box2 false))
  end.
