(* Model of what applyAdaptiveBoolean_ does when the sweep throws, polygon_45_set_data.hpp
   1457-1530 and 1582-1662, and applyAdaptiveUnary_, 1704-1782, for int coordinates. The polygons of the doubled result, pf.scan,
   are an argument: [form] gives the rings, shells and holes, as point sequences whose last
   point repeats the first. [srt] is polygon_sort. Areas are exact: the code computes them with
   long double. Doubled coordinates do not overflow (long long). *)
From Verif Require Import Base Units Scan90Spec Poly90Spec Poly90Model GeoSpec Set90Spec ArbSpec Ins45Spec Ins45Model Scan45Model Bool45Spec Bool45Model Retry45Spec.

(* point_sequence_area of three points, polygon_traits.hpp:958-997, twice *)
Definition area3 (p1 p2 p3 : point) : Z :=
  let yb := py p1 in
  (if px p1 =? px p2 then 0 else (px p2 - px p1) * ((py p2 - yb) + (py p1 - yb))) +
  (if px p2 =? px p3 then 0 else (px p3 - px p2) * ((py p3 - yb) + (py p2 - yb))) +
  (if pt_eqb p1 p3 then 0 else (px p1 - px p3) * ((py p1 - yb) + (py p3 - yb))).
(* 1501-1516: what a corner adds to posE and negE *)
Definition corner_rects (p1 p2 p3 : point) : list rect * list rect :=
  if negb (Z.rem (Z.abs (px p2)) 2 =? 0) then
    let r := mk_rect (px p2 - 1) (px p2 + 1) (py p2 - 1) (py p2 + 1) in
    if area3 p1 p2 p3 <? 0 then ([], [r]) else ([r], [])
  else ([], []).
Definition both_app (a b : list rect * list rect) : list rect * list rect := (fst a ++ fst b, snd a ++ snd b).
(* get_error_rects_shell, 1458-1520: the loop after the first two points; the last point of
   the range is not looked at, then come [first] and [second] *)
Fixpoint shell_loop (first second pt1 pt2 : point) (l : list point) : list rect * list rect :=
  match l with
  | [] => ([], [])
  | [_] => both_app (corner_rects pt1 pt2 first) (corner_rects pt2 first second)
  | p :: l' => both_app (corner_rects pt1 pt2 p) (shell_loop first second pt2 p l')
  end.
Definition error_shell (l : list point) : list rect * list rect :=
  match l with p0 :: p1 :: p2 :: l' => shell_loop p0 p1 p0 p1 (p2 :: l') | _ => ([], []) end.
(* get_error_rects, 1522-1529, and the loop over the polygons *)
Definition error_rects (rings : list (list point)) : list rect * list rect := fold_right (fun l e => both_app (error_shell l) e) ([], []) rings.
(* insert_rectangle_into_vector_45 for each of them *)
Definition insert_boxes (hole : bool) (bs : list rect) (d : list v45) : list v45 :=
  fold_left (fun d q => s_data (insert_rect45 hole q (mk_set45 d false))) bs d.
(* scale_down by 2: floor(x / 2 + 0.5), point_concept.hpp:401-407, isotropy.hpp:192 *)
Definition halve (v : v45) : v45 :=
  mk_v45 (mk_pt ((px (v_pt v) + 1) / 2) ((py (v_pt v) + 1) / 2)) (v_down v) (v_flat v) (v_up v) (v_vert v).
(* 1611-1656, 1724-1776: result data, is_manhattan_, error_data_ *)
Definition finish_retry (form : list v45 -> list (list point)) (srt : list v45 -> list v45) (q : list v45 * bool) : res (list v45 * bool * list v45) :=
  if snd q then Fine (map halve (fst q), true, [])
  else
    let '(pos, neg) := error_rects (form (fst q)) in
    run q2 <- unary45 0 (srt (insert_boxes true neg (insert_boxes false pos (fst q))));
    Fine (map halve (fst q2), false, map halve (insert_boxes false neg (insert_boxes false pos []))).
(* 1582-1659 *)
Definition retry45 (form : list v45 -> list (list point)) (srt : list v45 -> list v45) (op : Z) (sa sb : list v45) : res (list v45 * bool * list v45) :=
  run q <- bool45 op (map (scale45 2) sa) (map (scale45 2) sb); finish_retry form srt q.
(* 1704-1779 *)
Definition retry_self45 (form : list v45 -> list (list point)) (srt : list v45 -> list v45) (op : Z) (sa : list v45) : res (list v45 * bool * list v45) :=
  run q <- unary45 op (map (scale45 2) sa); finish_retry form srt q.
(* 1536-1538, 1578-1590: the error data of the operands is copied to the result first;
   result.clear() in the handler removes it *)
Definition bool_err45 (form : list v45 -> list (list point)) (srt : list v45 -> list v45) (op : Z) (sa sb ea eb : list v45) : res (list v45 * bool * list v45) :=
  match bool45 op sa sb with
  | Fine q => Fine (fst q, snd q, ea ++ eb)
  | Throw => retry45 form srt op sa sb
  | Bad => Bad
  end.
(* 1672, 1701-1709 *)
Definition self_err45 (form : list v45 -> list (list point)) (srt : list v45 -> list v45) (op : Z) (sa ea : list v45) : res (list v45 * bool * list v45) :=
  match unary45 op sa with
  | Fine q => Fine (fst q, snd q, ea)
  | Throw => retry_self45 form srt op sa
  | Bad => Bad
  end.
