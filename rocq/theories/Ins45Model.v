(* Model of the insertion into polygon_45_set_data, polygon_45_set_data.hpp, for int
   coordinates.

   A set is the vector data_ and the flag is_manhattan_; the flags dirty_ and unsorted_
   are left out: sorting and cleaning are other functions. error_data_ is left out. The
   counts are ints in the code, unbounded here. *)
From Verif Require Import Base Units Outcome Scan90Spec Poly90Spec GeoSpec PolySpec Poly90Model PolyModel RectModel SegModel Set90Spec ArbSpec Ins45Spec.

(* Vertex45Count::is_45, detail/polygon_45_formation.hpp:468-470 *)
Definition is_45 (v : v45) : bool := negb (v_down v =? 0) || negb (v_up v =? 0).
(* Vertex45Count::invert, polygon_45_formation.hpp:462-464: a new value *)
Definition invert (v : v45) : v45 := mk_v45 (v_pt v) (- v_down v) (- v_flat v) (- v_up v) (- v_vert v).
(* count[i] += c *)
Definition add_count (i c : Z) (v : v45) : v45 :=
  mk_v45 (v_pt v) (if i =? 0 then v_down v + c else v_down v) (if i =? 1 then v_flat v + c else v_flat v)
    (if i =? 2 then v_up v + c else v_up v) (if i =? 3 then v_vert v + c else v_vert v).

(* characterizeEdge45, polygon_45_set_data.hpp:464-490 *)
Definition characterize (p1 p2 : point) : Z * Z :=
  if px p1 =? px p2 then (3, -1)
  else if py p1 =? py p2 then (1, 1)
  else if px p1 <? px p2 then (if py p1 <? py p2 then (2, 1) else (0, 1))
  else if py p1 <? py p2 then (0, 1) else (2, 1).
(* insert_vertex_half_edge_45_pair_into_vector, 492-509: the vertex. [high] is the
   direction HIGH, that is COUNTERCLOCKWISE *)
Definition half_edge_pair (high : bool) (p1 p2 p3 : point) : v45 :=
  let multiplier := if high then 1 else -1 in
  let vertex := mk_v45 p2 0 0 0 0 in
  let (i, s) := characterize p1 p2 in
  let vertex := add_count i (s * - multiplier) vertex in
  let (i, s) := characterize p2 p3 in
  add_count i (s * multiplier) vertex.

(* data_ and is_manhattan_ *)
Record set45 : Type := mk_set45 { s_data : list v45; s_manhattan : bool }.
Definition empty45 : set45 := mk_set45 [] true.
(* insert_vertex_half_edge_45_pair, 511-516 *)
Definition push_pair (high : bool) (p1 p2 p3 : point) (s : set45) : set45 :=
  let v := half_edge_pair high p1 p2 p3 in
  mk_set45 (s_data s ++ [v]) (if is_45 v then false else s_manhattan s).
(* the do loop of insert_vertex_sequence, 531-535: the first point that differs and the
   rest of the sequence *)
Fixpoint next_differing (first : point) (l : list point) : option (point * list point) :=
  match l with
  | [] => None
  | q :: l' => if pt_eqb q first then next_differing first l' else Some (q, l')
  end.
(* the while loop, 538-549 *)
Fixpoint vseq45_loop (high : bool) (prevprev prev : point) (l : list point) (s : set45) : point * point * set45 :=
  match l with
  | [] => (prevprev, prev, s)
  | q :: l' =>
      if pt_eqb q prev then vseq45_loop high prevprev prev l' s
      else vseq45_loop high prev q l' (push_pair high prevprev prev q s)
  end.
(* insert_vertex_sequence, 518-558 *)
Definition insert_vseq45 (ccw hole : bool) (pts : list point) (s : set45) : set45 :=
  match pts with
  | [] => s
  | first :: l =>
      let high := if hole then negb ccw else ccw in
      match next_differing first l with
      | None => s
      | Some (second, l') =>
          let '(prevprev, prev, s) := vseq45_loop high first second l' s in
          if negb (pt_eqb prev first)
          then push_pair high prev first second (push_pair high prevprev prev first s)
          else push_pair high prevprev first second s
      end
  end.
(* insert_dispatch of polygon_45_data and polygon_45_with_holes_data, 396-408. The area in
   [winding] is computed with long double, [w] is its precision, see PolyModel.v *)
Definition insert_ring45 (w : Z) (hole : bool) (pts : list point) (s : set45) : outcome set45 :=
  try ccw <- points_ccw_d w pts; Ok (insert_vseq45 ccw hole pts s).
Fixpoint insert_rings45 (w : Z) (hole : bool) (hs : list (list point)) (s : set45) : outcome set45 :=
  match hs with
  | [] => Ok s
  | h :: hs' => try s <- insert_ring45 w hole h s; insert_rings45 w hole hs' s
  end.
Definition insert_polygon45 (w : Z) (hole : bool) (g : gpoly) (s : set45) : outcome set45 :=
  try s <- insert_ring45 w hole (g_outer g) s; insert_rings45 w (negb hole) (g_holes g) s.
(* insert_rectangle_into_vector_45, 613-623, insert_dispatch of rectangles, 625-632 *)
Definition insert_rect45 (hole : bool) (r : rect) (s : set45) : set45 :=
  let ll := mk_pt (xl r) (yl r) in let lr := mk_pt (xh r) (yl r) in
  let ul := mk_pt (xl r) (yh r) in let ur := mk_pt (xh r) (yh r) in
  let dir := negb hole in
  mk_set45 (s_data s ++ [half_edge_pair dir ll lr ur; half_edge_pair dir lr ur ul; half_edge_pair dir ur ul ll; half_edge_pair dir ul ll lr]) (s_manhattan s).
(* insert of another set, 560-577 *)
Definition insert_set45 (hole : bool) (t s : set45) : set45 :=
  mk_set45 (s_data s ++ (if hole then map invert (s_data t) else s_data t)) (if negb (s_manhattan t) then false else s_manhattan s).
(* insert_clean, 115-119: count.invert() returns a new value, which is dropped *)
Definition insert_clean45 (hole : bool) (v : v45) (s : set45) : set45 :=
  mk_set45 (s_data s ++ [v]) (if is_45 v then false else s_manhattan s).
(* insert of a vertex, 121-125 *)
Definition insert_vertex45 (hole : bool) (v : v45) (s : set45) : set45 := insert_clean45 hole v s.
(* insert of a polygon_90_set_data, 127-149; the constructor of the vertex with rise 2
   sets count[3] *)
Definition vertex_of_90 (hole : bool) (o : orient) (v : vertex) : v45 :=
  let p := match o with Vertical => mk_pt (vx v) (vy v) | Horizontal => mk_pt (vy v) (vx v) end in
  mk_v45 p 0 (if hole then vc v * -1 else vc v) 0 (vc v).
Definition insert_set90 (hole : bool) (o : orient) (t : list vertex) (s : set45) : set45 :=
  fold_left (fun s v => insert_clean45 hole (vertex_of_90 hole o v) s) t s.
(* the data of the polygon_90_set_data that the boolean operators and clean compute with if
   is_manhattan_ holds, 1540-1550 and 1673-1680: count[3] of the vertices, scan orientation
   VERTICAL *)
Definition manhattan_data (s : set45) : list vertex :=
  map (fun v => (px (v_pt v), (py (v_pt v), v_vert v))) (filter (fun v => negb (v_vert v =? 0)) (s_data s)).
