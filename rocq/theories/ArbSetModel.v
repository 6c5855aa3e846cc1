(* Model of polygon_set_data.hpp and detail/polygon_set_view.hpp, for int coordinates:
   insertion of polygons, the boolean operators, clean and ==.

   A set is its list of edges. The flags dirty_, unsorted_ and is_45_ are left out:
   clean stands for the case that the set is dirty. So is sort, which only changes
   the order of the edges: the theorems hold for every order. *)
From Verif Require Import Base Units Outcome Scan90Spec Poly90Spec Poly90Model Set90Spec Set90Model GeoSpec IvlModel RectModel SegModel PolySpec PolyModel ScanBaseModel SnapModel ArbSpec ArbModel.

(* insert_clean with is_hole, polygon_set_data.hpp:179-190 *)
Definition insert_edge (hole : bool) (e : pedge) : pedge :=
  let e' := insert_clean e in if hole then (fst e', snd e' * -1) else e'.
(* the loop of insert_vertex_sequence, 216-231: consecutive points, the last and the first *)
Fixpoint vseq_loop (first prev : point) (l : list point) : list (point * point) :=
  match l with [] => [(prev, first)] | q :: l' => (prev, q) :: vseq_loop first q l' end.
Definition vseq_edge (w : Z) (e : point * point) : list pedge :=
  let (p0, p1) := e in
  if pt_eqb p0 p1 then []
  else [insert_edge false (mk_seg p0 p1, (if px p0 =? px p1 then -1 else 1) * w)].
(* insert_vertex_sequence, 198-232 *)
Definition insert_vseq (ccw hole : bool) (pts : list point) : list pedge :=
  match pts with
  | [] => []
  | [_] => []
  | p :: l =>
      let w := if ccw then 1 else -1 in
      let w := if hole then - w else w in
      flat_map (vseq_edge w) (vseq_loop p p l)
  end.
(* insert of a polygon, 120-122, with holes, 156-163. [w] is the precision of long
   double in the computation of the area for the winding, see PolyModel.v *)
Definition insert_ring (w : Z) (hole : bool) (pts : list point) : outcome (list pedge) :=
  try ccw <- points_ccw_d w pts; Ok (insert_vseq ccw hole pts).
Fixpoint insert_rings (w : Z) (hole : bool) (hs : list (list point)) : outcome (list pedge) :=
  match hs with
  | [] => Ok []
  | h :: hs' => try a <- insert_ring w hole h; try b <- insert_rings w hole hs'; Ok (a ++ b)
  end.
Definition insert_polygon (w : Z) (hole : bool) (g : gpoly) : outcome (list pedge) :=
  try a <- insert_ring w hole (g_outer g);
  try b <- insert_rings w (negb hole) (g_holes g);
  Ok (a ++ b).
(* insert of a range of polygons into an empty set, 107-113 *)
Fixpoint insert_polygons (w : Z) (gs : list gpoly) : outcome (list pedge) :=
  match gs with
  | [] => Ok []
  | g :: gs' => try a <- insert_polygon w false g; try b <- insert_polygons w gs'; Ok (a ++ b)
  end.
(* insert of the edges of another set, 94-103 and 124-126 *)
Definition insert_set (hole : bool) (l : list pedge) : list pedge := map (insert_edge hole) l.
(* execute_boolean_op, polygon_set_view.hpp:92-122: |, &, ^, - and the assignments *)
Definition set_op (op : bool_op) (a b : list pedge) : outcome (list pedge) :=
  boolean_exec op (insert_set false a) (insert_set false b).
(* clean, polygon_set_view.hpp:14-42 *)
Definition set_clean (a : list pedge) : outcome (list pedge) := boolean_exec OpOr a [].
(* ==, polygon_set_view.hpp:210-216 *)
Definition set_eq (a b : list pedge) : outcome bool :=
  try r <- set_op OpXor a b; Ok (match r with [] => true | _ => false end).
