(* Model of voronoi_diagram.hpp and of the sweep in voronoi_builder.hpp.

   What the floating point arithmetic decides is a parameter ([geometry]): which
   arc lies over a new site, which circle event comes next, whether a site event
   comes before a circle event and the circle through three sites. Everything
   else is modelled as written: the beach line, the event queue, the temporary
   bisectors of segments, the half-edge structure and its clean-up.

   Pointers into the vectors of cells, vertices and edges are indices; the null
   pointer is None. Reading or writing through None or outside of a vector is
   Undefined, and so is a push_back that exceeds the reserved capacity, since it
   would move the vector away from under the pointers. Iterators into the beach
   line and pointers into the event queue are numbers that are never used again. *)
From Verif Require Import Base Units Outcome Scan90Spec Set90Spec GeoSpec Poly90Model XIntModel VorSpec VorModel.

(* ---------- colour bits ---------- *)
(* color_type is size_t, 64 bits. color(), 75, 124, 236: the 5 low bits are
   reserved; color(c), 76-79, 125-128, 237-240. *)
Definition col_get (bits : Z) : Z := Z.shiftr bits 5.
Definition col_set (c bits : Z) : Z := Z.lor (Z.land bits 31) (u64 (Z.shiftl c 5)).
(* voronoi_edge(is_linear, is_primary), 153-165; is_linear 208-210, is_curved
   214-216, is_primary 220-222, is_secondary 226-228 *)
Definition edge_bits (is_linear is_primary : bool) : Z :=
  let b := if is_linear then Z.lor 0 1 else 0 in if is_primary then Z.lor b 2 else b.
Definition is_linear (bits : Z) : bool := if negb (Z.land bits 1 =? 0) then true else false.
Definition is_curved (bits : Z) : bool := if negb (Z.land bits 1 =? 0) then false else true.
Definition is_primary (bits : Z) : bool := if negb (Z.land bits 2 =? 0) then true else false.
Definition is_secondary (bits : Z) : bool := if negb (Z.land bits 2 =? 0) then false else true.
(* voronoi_cell(source_index, source_category), 42-46; source_category 64-66;
   belongs, voronoi_geometry_type.hpp:40-47; contains_point and contains_segment
   49-58 *)
Definition cell_category (bits : Z) : Z := Z.land bits 31.
Definition belongs (cat geo : Z) : bool := Z.shiftr cat 3 =? geo.
Definition cell_contains_point (bits : Z) : bool := belongs (cell_category bits) 0.
Definition cell_contains_segment (bits : Z) : bool := belongs (cell_category bits) 1.

(* ---------- data ---------- *)
(* site_event, voronoi_structures.hpp:81-228; of flags_ the source category and
   the bit IS_INVERSE *)
Record sev : Type := mk_sev { e_p0 : point; e_p1 : point; e_sorted : nat; e_initial : nat; e_cat : Z; e_inv : bool }.
Definition sev_segment (s : sev) : bool := negb (px (e_p0 s) =? px (e_p1 s)) || negb (py (e_p0 s) =? py (e_p1 s)).
Definition sev_inverse (s : sev) : sev := mk_sev (e_p1 s) (e_p0 s) (e_sorted s) (e_initial s) (e_cat s) (negb (e_inv s)).
Definition sev_vertical (s : sev) : bool := px (e_p0 s) =? px (e_p1 s).

(* coordinates of vertices and circles: the bit patterns of doubles *)
Record circle : Type := mk_circle { ci_x : Z; ci_y : Z; ci_lower : Z }.
Record vcell : Type := mk_vcell { c_source : nat; c_incident : option nat; c_color : Z }.
Record vvertex : Type := mk_vvertex { v_x : Z; v_y : Z; v_incident : option nat; v_color : Z }.
Record dart : Type := mk_dart {
  d_cell : option nat; d_vertex : option nat; d_twin : option nat; d_next : option nat; d_prev : option nat; d_color : Z }.
(* [dg_cap]: the argument of _reserve *)
Record diagram : Type := mk_dg { dg_cells : list vcell; dg_vertices : list vvertex; dg_edges : list dart; dg_cap : nat }.

Definition set_cell (v : option nat) (d : dart) : dart := mk_dart v (d_vertex d) (d_twin d) (d_next d) (d_prev d) (d_color d).
Definition set_vertex (v : option nat) (d : dart) : dart := mk_dart (d_cell d) v (d_twin d) (d_next d) (d_prev d) (d_color d).
Definition set_twin (v : option nat) (d : dart) : dart := mk_dart (d_cell d) (d_vertex d) v (d_next d) (d_prev d) (d_color d).
Definition set_next (v : option nat) (d : dart) : dart := mk_dart (d_cell d) (d_vertex d) (d_twin d) v (d_prev d) (d_color d).
Definition set_prev (v : option nat) (d : dart) : dart := mk_dart (d_cell d) (d_vertex d) (d_twin d) (d_next d) v (d_color d).

(* ---------- memory ---------- *)
Fixpoint upd {A : Type} (i : nat) (f : A -> A) (l : list A) : list A :=
  match l, i with
  | [], _ => []
  | a :: t, O => f a :: t
  | a :: t, S j => a :: upd j f t
  end.
Definition deref {A : Type} (p : option nat) (l : list A) : outcome A :=
  match p with
  | None => Undefined
  | Some i => match nth_error l i with Some a => Ok a | None => Undefined end
  end.
Definition assign {A : Type} (p : option nat) (f : A -> A) (l : list A) : outcome (list A) :=
  match p with
  | None => Undefined
  | Some i => if (i <? length l)%nat then Ok (upd i f l) else Undefined
  end.
(* the getters of an edge behind a pointer, and rot_next, rot_prev, 187-196 *)
Definition p_twin (E : list dart) (p : option nat) : outcome (option nat) := try d <- deref p E; Ok (d_twin d).
Definition p_next (E : list dart) (p : option nat) : outcome (option nat) := try d <- deref p E; Ok (d_next d).
Definition p_prev (E : list dart) (p : option nat) : outcome (option nat) := try d <- deref p E; Ok (d_prev d).
Definition p_vertex (E : list dart) (p : option nat) : outcome (option nat) := try d <- deref p E; Ok (d_vertex d).
Definition p_rot_next (E : list dart) (p : option nat) : outcome (option nat) := try q <- p_prev E p; p_twin E q.
Definition p_rot_prev (E : list dart) (p : option nat) : outcome (option nat) := try q <- p_twin E p; p_next E q.
Definition ptr_eqb (p q : option nat) : bool :=
  match p, q with Some i, Some j => (i =? j)%nat | None, None => true | _, _ => false end.

(* ---------- voronoi_diagram ---------- *)
(* _reserve 329-333: n cells, 2n vertices, 6n edges; the diagram is empty *)
Definition dg_reserve (n : nat) : diagram := mk_dg [] [] [] n.
Definition push_cell (c : vcell) (g : diagram) : outcome diagram :=
  if (length (dg_cells g) <? dg_cap g)%nat then Ok (mk_dg (dg_cells g ++ [c]) (dg_vertices g) (dg_edges g) (dg_cap g)) else Undefined.
Definition push_vertex (v : vvertex) (g : diagram) : outcome diagram :=
  if (length (dg_vertices g) <? 2 * dg_cap g)%nat then Ok (mk_dg (dg_cells g) (dg_vertices g ++ [v]) (dg_edges g) (dg_cap g)) else Undefined.
Definition push_edge (d : dart) (g : diagram) : outcome diagram :=
  if (length (dg_edges g) <? 6 * dg_cap g)%nat then Ok (mk_dg (dg_cells g) (dg_vertices g) (dg_edges g ++ [d]) (dg_cap g)) else Undefined.
Definition on_edges (f : list dart -> outcome (list dart)) (g : diagram) : outcome diagram :=
  try E <- f (dg_edges g); Ok (mk_dg (dg_cells g) (dg_vertices g) E (dg_cap g)).
Definition new_cell (s : sev) : vcell := mk_vcell (e_initial s) None (e_cat s).
Definition new_dart (is_linear is_primary : bool) : dart := mk_dart None None None None None (edge_bits is_linear is_primary).
(* _process_single_site 336-338 *)
Definition process_single_site (s : sev) (g : diagram) : outcome diagram := push_cell (new_cell s) g.
(* is_primary_edge 559-571, is_linear_edge 574-579 *)
Definition is_primary_edge (s1 s2 : sev) : bool :=
  if sev_segment s1 && negb (sev_segment s2) then negb (pt_eqb (e_p0 s1) (e_p0 s2)) && negb (pt_eqb (e_p1 s1) (e_p0 s2))
  else if negb (sev_segment s1) && sev_segment s2 then negb (pt_eqb (e_p0 s2) (e_p0 s1)) && negb (pt_eqb (e_p1 s2) (e_p0 s1))
  else true.
Definition is_linear_edge (s1 s2 : sev) : bool :=
  if negb (is_primary_edge s1 s2) then true else negb (xorb (sev_segment s1) (sev_segment s2)).
(* &cells_[i] *)
Definition cell_ptr (i : nat) (g : diagram) : outcome (option nat) :=
  if (i <? length (dg_cells g))%nat then Ok (Some i) else Undefined.
(* _insert_new_edge 345-384 *)
Definition insert_site_edge (s1 s2 : sev) (g : diagram) : outcome (diagram * (option nat * option nat)) :=
  let il := is_linear_edge s1 s2 in
  let ip := is_primary_edge s1 s2 in
  let edge1 := Some (length (dg_edges g)) in
  try g1 <- push_edge (new_dart il ip) g;
  let edge2 := Some (length (dg_edges g1)) in
  try g2 <- push_edge (new_dart il ip) g1;
  try g3 <- (match dg_cells g2 with [] => push_cell (new_cell s1) g2 | _ => Ok g2 end);
  try g4 <- push_cell (new_cell s2) g3;
  try c1 <- cell_ptr (e_sorted s1) g4;
  try g5 <- on_edges (assign edge1 (set_cell c1)) g4;
  try c2 <- cell_ptr (e_sorted s2) g5;
  try g6 <- on_edges (assign edge2 (set_cell c2)) g5;
  try g7 <- on_edges (assign edge1 (set_twin edge2)) g6;
  try g8 <- on_edges (assign edge2 (set_twin edge1)) g7;
  Ok (g8, (edge1, edge2)).
(* _insert_new_edge 392-440 *)
Definition insert_circle_edge (s1 s3 : sev) (c : circle) (edge12 edge23 : option nat) (g : diagram)
  : outcome (diagram * (option nat * option nat)) :=
  let v := Some (length (dg_vertices g)) in
  try g1 <- push_vertex (mk_vvertex (ci_x c) (ci_y c) None 0) g;
  try g2 <- on_edges (assign edge12 (set_vertex v)) g1;
  try g3 <- on_edges (assign edge23 (set_vertex v)) g2;
  let il := is_linear_edge s1 s3 in
  let ip := is_primary_edge s1 s3 in
  let new1 := Some (length (dg_edges g3)) in
  try g4 <- push_edge (new_dart il ip) g3;
  try c1 <- cell_ptr (e_sorted s1) g4;
  try g5 <- on_edges (assign new1 (set_cell c1)) g4;
  let new2 := Some (length (dg_edges g5)) in
  try g6 <- push_edge (new_dart il ip) g5;
  try c3 <- cell_ptr (e_sorted s3) g6;
  try g7 <- on_edges (assign new2 (set_cell c3)) g6;
  try g8 <- on_edges (assign new1 (set_twin new2)) g7;
  try g9 <- on_edges (assign new2 (set_twin new1)) g8;
  try g10 <- on_edges (assign new2 (set_vertex v)) g9;
  try g11 <- on_edges (fun E =>
    try E1 <- assign edge12 (set_prev new1) E;
    try E2 <- assign new1 (set_next edge12) E1;
    try t12 <- p_twin E2 edge12; try E3 <- assign t12 (set_next edge23) E2;
    try t12 <- p_twin E3 edge12; try E4 <- assign edge23 (set_prev t12) E3;
    try t23 <- p_twin E4 edge23; try E5 <- assign t23 (set_next new2) E4;
    try t23 <- p_twin E5 edge23; assign new2 (set_prev t23) E5) g10;
  Ok (g11, (new1, new2)).

(* remove_edge, 582-608. The loop runs around a vertex, over at most as many
   edges as there are; [fuel] is their number. *)
Fixpoint spin (fuel : nat) (v stop u : option nat) (E : list dart) : outcome (list dart) :=
  match fuel with
  | O => Undefined
  | S fuel' =>
      if ptr_eqb u stop then Ok E
      else try E1 <- assign u (set_vertex v) E; try u' <- p_rot_next E1 u; spin fuel' v stop u' E1
  end.
Definition remove_edge (e : option nat) (E : list dart) : outcome (list dart) :=
  try v <- p_vertex E e;
  try t <- p_twin E e;
  try u <- p_rot_next E t;
  try E0 <- spin (S (length E)) v t u E;
  try e1rp <- p_rot_prev E0 e; try e1rn <- p_rot_next E0 e;
  try e2rp <- p_rot_prev E0 t; try e2rn <- p_rot_next E0 t;
  try a <- p_twin E0 e1rn; try E1 <- assign a (set_next e2rp) E0;
  try a <- p_twin E1 e1rn; try E2 <- assign e2rp (set_prev a) E1;
  try b <- p_twin E2 e2rn; try E3 <- assign e1rp (set_prev b) E2;
  try b <- p_twin E3 e2rn; assign b (set_next e1rp) E3.
(* vertex_equality_predicate_type, 269-282 *)
Definition vertex_same (v1 v2 : vvertex) : bool :=
  (ulp_comparison (v_x v1) (v_x v2) 128 =? 0) && (ulp_comparison (v_y v1) (v_y v2) 128 =? 0).
(* _build: removal of degenerate edges, 444-468; [n] is the number of pairs of
   half-edges from [it] on *)
Definition is_degenerate_edge (V : list vvertex) (E : list dart) (it : nat) : outcome bool :=
  try v1 <- p_vertex E (Some it);
  try t <- p_twin E (Some it);
  try v2 <- p_vertex E t;
  match v1, v2 with
  | Some _, Some _ => try w1 <- deref v1 V; try w2 <- deref v2 V; Ok (vertex_same w1 w2)
  | _, _ => Ok false
  end.
Definition move_pair (it last : nat) (E : list dart) : outcome (list dart) :=
  let e1 := Some last in
  let e2 := Some (S last) in
  try a <- deref (Some it) E; try E1 <- assign e1 (fun _ => a) E;
  try b <- deref (Some (S it)) E1; try E2 <- assign e2 (fun _ => b) E1;
  try E3 <- assign e1 (set_twin e2) E2;
  try E4 <- assign e2 (set_twin e1) E3;
  try p1 <- p_prev E4 e1;
  try E5 <- match p1 with
            | None => Ok E4
            | Some _ => try F <- assign p1 (set_next e1) E4; try n2 <- p_next F e2; assign n2 (set_prev e2) F
            end;
  try p2 <- p_prev E5 e2;
  match p2 with
  | None => Ok E5
  | Some _ => try n1 <- p_next E5 e1; try F <- assign n1 (set_prev e1) E5; try p2 <- p_prev F e2; assign p2 (set_next e2) F
  end.
Fixpoint drop_edges (n : nat) (V : list vvertex) (it last : nat) (E : list dart) : outcome (list dart * nat) :=
  match n with
  | O => Ok (E, last)
  | S n' =>
      try b <- is_degenerate_edge V E it;
      if b then try E1 <- remove_edge (Some it) E; drop_edges n' V (it + 2) last E1
      else
        try E1 <- (if (it =? last)%nat then Ok E else move_pair it last E);
        drop_edges n' V (it + 2) (last + 2) E1
  end.
(* incident edges, 471-476 *)
Definition set_c_incident (e : option nat) (c : vcell) : vcell := mk_vcell (c_source c) e (c_color c).
Definition set_v_incident (e : option nat) (v : vvertex) : vvertex := mk_vvertex (v_x v) (v_y v) e (v_color v).
Fixpoint set_incident (i : nat) (l : list dart) (C : list vcell) (V : list vvertex) : outcome (list vcell * list vvertex) :=
  match l with
  | [] => Ok (C, V)
  | d :: l' =>
      try C1 <- assign (d_cell d) (set_c_incident (Some i)) C;
      try V1 <- match d_vertex d with None => Ok V | Some _ => assign (d_vertex d) (set_v_incident (Some i)) V end;
      set_incident (S i) l' C1 V1
  end.
(* removal of degenerate vertices, 479-494 *)
Fixpoint relabel (fuel : nat) (v : nat) (stop e : option nat) (E : list dart) : outcome (list dart) :=
  match fuel with
  | O => Undefined
  | S fuel' =>
      try E1 <- assign e (set_vertex (Some v)) E;
      try e' <- p_rot_next E1 e;
      if ptr_eqb e' stop then Ok E1 else relabel fuel' v stop e' E1
  end.
Fixpoint drop_vertices (n : nat) (it last : nat) (V : list vvertex) (E : list dart) : outcome (list vvertex * list dart * nat) :=
  match n with
  | O => Ok (V, E, last)
  | S n' =>
      try w <- deref (Some it) V;
      match v_incident w with
      | None => drop_vertices n' (S it) last V E
      | Some e =>
          try ' (V1, E1) <- (if (it =? last)%nat then Ok (V, E)
                             else try V1 <- assign (Some last) (fun _ => w) V;
                                  try E1 <- relabel (length E) last (Some e) (Some e) E; Ok (V1, E1));
          drop_vertices n' (S it) (S last) V1 E1
      end
  end.
(* next and prev of infinite edges. 497-521: no vertices; [m] is the number of
   edges after edge1 *)
Fixpoint link_lines (fuel : nat) (edge1 : nat) (E : list dart) : outcome (list dart) :=
  match fuel with
  | O => Undefined
  | S fuel' =>
      let it := S edge1 in
      if (it =? length E)%nat then
        try E1 <- assign (Some edge1) (set_next (Some edge1)) E; assign (Some edge1) (set_prev (Some edge1)) E1
      else
        let edge2 := it in
        try E1 <- assign (Some edge1) (set_next (Some edge2)) E;
        try E2 <- assign (Some edge1) (set_prev (Some edge2)) E1;
        try E3 <- assign (Some edge2) (set_next (Some edge1)) E2;
        try E4 <- assign (Some edge2) (set_prev (Some edge1)) E3;
        link_lines fuel' (S edge2) E4
  end.
Definition link_first_line (E : list dart) : outcome (list dart) :=
  match E with
  | [] => Ok E
  | _ =>
      try E1 <- assign (Some 0%nat) (set_next (Some 0%nat)) E;
      try E2 <- assign (Some 0%nat) (set_prev (Some 0%nat)) E1;
      link_lines (length E) 1 E2
  end.
(* 522-546 *)
Fixpoint walk_left (fuel : nat) (stop e : option nat) (E : list dart) : outcome (option nat) :=
  match fuel with
  | O => Undefined
  | S fuel' =>
      try p <- p_prev E e;
      match p with
      | None => Ok e
      | Some _ => if ptr_eqb p stop then Ok p else walk_left fuel' stop p E
      end
  end.
Fixpoint walk_right (fuel : nat) (e : option nat) (E : list dart) : outcome (option nat) :=
  match fuel with
  | O => Undefined
  | S fuel' =>
      try n <- p_next E e;
      match n with
      | None => Ok e
      | Some _ => walk_right fuel' n E
      end
  end.
Definition link_cell (c : vcell) (E : list dart) : outcome (list dart) :=
  match c_incident c with
  | None => Ok E
  | Some _ =>
      try left_edge <- walk_left (length E) (c_incident c) (c_incident c) E;
      try p <- p_prev E left_edge;
      match p with
      | Some _ => Ok E
      | None =>
          try right_edge <- walk_right (length E) (c_incident c) E;
          try E1 <- assign left_edge (set_prev right_edge) E;
          assign right_edge (set_next left_edge) E1
      end
  end.
Fixpoint link_cells (l : list vcell) (E : list dart) : outcome (list dart) :=
  match l with
  | [] => Ok E
  | c :: l' => try E1 <- link_cell c E; link_cells l' E1
  end.
Definition build (g : diagram) : outcome diagram :=
  try ' (E1, last_edge) <- drop_edges (Nat.div2 (length (dg_edges g))) (dg_vertices g) 0 0 (dg_edges g);
  let E2 := firstn last_edge E1 in
  try ' (C, V) <- set_incident 0 E2 (dg_cells g) (dg_vertices g);
  try ' (V1, E3, last_vertex) <- drop_vertices (length V) 0 0 V E2;
  let V2 := firstn last_vertex V1 in
  try E4 <- (match V2 with [] => link_first_line E3 | _ => link_cells C E3 end);
  Ok (mk_dg C V2 E4 (dg_cap g)).

(* ---------- voronoi_builder ---------- *)
(* beach_line_node_key and beach_line_node_data, with the number that stands for
   the iterator *)
Record node : Type := mk_node { n_id : nat; n_left : sev; n_right : sev; n_edge : option nat; n_circle : option nat }.
(* an element of the event queue: the circle, the bisector, is_active *)
Record qev : Type := mk_qev { q_id : nat; q_circle : circle; q_node : nat; q_active : bool }.
(* what floating point arithmetic decides. [g_form]: the circle formation functor
   and lies_outside_vertical_segment, voronoi_predicates.hpp:1507-1527. The
   comparison of the priority queue decides which of its elements is at the top. *)
Record geometry : Type := mk_geometry {
  g_lower_bound : list node -> sev -> nat;
  g_site_first : sev -> circle -> bool;
  g_top : list qev -> nat;
  g_form : sev -> sev -> sev -> option circle }.
(* [st_sites]: the sites from site_event_iterator_ on; [st_fresh]: the
   next number for an iterator or a queue element *)
Record vst : Type := mk_vst {
  st_sites : list sev; st_beach : list node; st_queue : list qev; st_ends : list (point * nat); st_fresh : nat; st_out : diagram }.

(* circle_existence_predicate, voronoi_predicates.hpp:458-521 *)
Definition ce_ppp (s1 s2 s3 : sev) : outcome bool := try o <- ot_points (e_p0 s1) (e_p0 s2) (e_p0 s3); Ok (o =? -1).
Definition ce_pps (s1 s2 s3 : sev) (segment_index : Z) : outcome bool :=
  if negb (segment_index =? 2) then
    try o1 <- ot_points (e_p0 s1) (e_p0 s2) (e_p0 s3);
    try o2 <- ot_points (e_p0 s1) (e_p0 s2) (e_p1 s3);
    if (segment_index =? 1) && (px (e_p0 s1) >=? px (e_p0 s2)) then Ok (o1 =? -1)
    else if (segment_index =? 3) && (px (e_p0 s2) >=? px (e_p0 s1)) then Ok (o2 =? -1)
    else Ok ((o1 =? -1) || (o2 =? -1))
  else Ok (negb (pt_eqb (e_p0 s3) (e_p0 s1)) || negb (pt_eqb (e_p1 s3) (e_p0 s2))).
Definition ce_pss (s1 s2 s3 : sev) (point_index : Z) : outcome bool :=
  if (e_sorted s2 =? e_sorted s3)%nat then Ok false
  else if point_index =? 2 then
    if negb (e_inv s2) && e_inv s3 then Ok false
    else if Bool.eqb (e_inv s2) (e_inv s3) then
      try o <- ot_points (e_p0 s2) (e_p0 s1) (e_p1 s3); Ok (o =? -1)
    else Ok true
  else Ok true.
Definition ce_sss (s1 s2 s3 : sev) : outcome bool :=
  Ok (negb (e_sorted s1 =? e_sorted s2)%nat && negb (e_sorted s2 =? e_sorted s3)%nat).
(* circle_formation_predicate, 1428-1505 *)
Definition circle_exists (s1 s2 s3 : sev) : outcome bool :=
  match sev_segment s1, sev_segment s2, sev_segment s3 with
  | false, false, false => ce_ppp s1 s2 s3
  | false, false, true => ce_pps s1 s2 s3 3
  | false, true, false => ce_pps s1 s3 s2 2
  | false, true, true => ce_pss s1 s2 s3 1
  | true, false, false => ce_pps s2 s3 s1 1
  | true, false, true => ce_pss s2 s1 s3 2
  | true, true, false => ce_pss s3 s1 s2 3
  | true, true, true => ce_sss s1 s2 s3
  end.
Definition circle_formation (G : geometry) (s1 s2 s3 : sev) : outcome (option circle) :=
  try b <- circle_exists s1 s2 s3; Ok (if b then g_form G s1 s2 s3 else None).

(* the beach line as a list; iterators: None is end() *)
Fixpoint bl_split (id : nat) (l : list node) : option (list node * node * list node) :=
  match l with
  | [] => None
  | n :: t => if (n_id n =? id)%nat then Some ([], n, t)
              else match bl_split id t with Some (a, m, b) => Some (n :: a, m, b) | None => None end
  end.
Fixpoint split_last {A : Type} (l : list A) : option (list A * A) :=
  match l with
  | [] => None
  | a :: t => match split_last t with None => Some ([], a) | Some (b, z) => Some (a :: b, z) end
  end.
(* map::insert with a hint: the model takes the hint to be right, so that the new
   nodes come right before it *)
Definition bl_insert (pos : option nat) (new : list node) (l : list node) : outcome (list node) :=
  match pos with
  | None => Ok (l ++ new)
  | Some id => match bl_split id l with Some (a, m, b) => Ok (a ++ new ++ m :: b) | None => Undefined end
  end.
Definition bl_erase (id : nat) (l : list node) : outcome (list node) :=
  match bl_split id l with Some (a, m, b) => Ok (a ++ b) | None => Undefined end.
Definition bl_modify (id : nat) (f : node -> node) (l : list node) : outcome (list node) :=
  match bl_split id l with Some (a, m, b) => Ok (a ++ f m :: b) | None => Undefined end.
Definition set_circle (c : option nat) (n : node) : node := mk_node (n_id n) (n_left n) (n_right n) (n_edge n) c.

Definition with_beach (l : list node) (st : vst) : vst := mk_vst (st_sites st) l (st_queue st) (st_ends st) (st_fresh st) (st_out st).
Definition with_queue (q : list qev) (st : vst) : vst := mk_vst (st_sites st) (st_beach st) q (st_ends st) (st_fresh st) (st_out st).

(* deactivate_circle_event 269-274 *)
Fixpoint q_deactivate (id : nat) (q : list qev) : option (list qev) :=
  match q with
  | [] => None
  | e :: t => if (q_id e =? id)%nat then Some (mk_qev (q_id e) (q_circle e) (q_node e) false :: t)
              else match q_deactivate id t with Some t' => Some (e :: t') | None => None end
  end.
Definition deactivate_circle_event (id : nat) (st : vst) : outcome vst :=
  match bl_split id (st_beach st) with
  | None => Undefined
  | Some (a, n, b) =>
      match n_circle n with
      | None => Ok st
      | Some c => match q_deactivate c (st_queue st) with
                  | None => Undefined
                  | Some q => Ok (with_beach (a ++ set_circle None n :: b) (with_queue q st))
                  end
      end
  end.
(* activate_circle_event 475-491 *)
Definition activate_circle_event (G : geometry) (s1 s2 s3 : sev) (bisector : nat) (st : vst) : outcome vst :=
  try r <- circle_formation G s1 s2 s3;
  match r with
  | None => Ok st
  | Some c =>
      let q := st_fresh st in
      try l <- bl_modify bisector (set_circle (Some q)) (st_beach st);
      Ok (mk_vst (st_sites st) l (mk_qev q c bisector true :: st_queue st) (st_ends st) (S q) (st_out st))
  end.
(* insert_new_arc 430-471; returns the iterator to the left node *)
Definition insert_new_arc (arc1 arc2 ev : sev) (pos : option nat) (st : vst) : outcome (vst * nat) :=
  let right_left := if sev_segment ev then sev_inverse ev else ev in
  try ' (out, (e1, e2)) <- insert_site_edge arc2 ev (st_out st);
  let i := st_fresh st in
  let right_node := mk_node i right_left arc2 e2 None in
  if sev_segment ev then
    let temp := mk_node (i + 1) ev (sev_inverse ev) None None in
    let left_node := mk_node (i + 2) arc1 ev e1 None in
    try l <- bl_insert pos [left_node; temp; right_node] (st_beach st);
    Ok (mk_vst (st_sites st) l (st_queue st) ((e_p1 ev, (i + 1)%nat) :: st_ends st) (i + 3) out, (i + 2)%nat)
  else
    let left_node := mk_node (i + 1) arc1 ev e1 None in
    try l <- bl_insert pos [left_node; right_node] (st_beach st);
    Ok (mk_vst (st_sites st) l (st_queue st) (st_ends st) (i + 2) out, (i + 1)%nat).
(* the body of the loop in process_site_event, 306-366 *)
Definition site_step (G : geometry) (ev : sev) (right_it : option nat) (st : vst) : outcome (vst * option nat) :=
  let ev' := if sev_segment ev then sev_inverse ev else ev in
  match right_it with
  | None =>
      match split_last (st_beach st) with
      | None => Undefined
      | Some (_, l) =>
          try ' (st1, id) <- insert_new_arc (n_right l) (n_right l) ev None st;
          try st2 <- activate_circle_event G (n_left l) (n_right l) ev id st1;
          Ok (st2, Some id)
      end
  | Some rid =>
      match bl_split rid (st_beach st) with
      | None => Undefined
      | Some (pre, r, _) =>
          match split_last pre with
          | None =>
              try ' (st1, id) <- insert_new_arc (n_left r) (n_left r) ev (Some rid) st;
              try st2 <- activate_circle_event G ev' (n_left r) (n_right r) rid st1;
              Ok (st2, Some id)
          | Some (_, l) =>
              try st0 <- deactivate_circle_event rid st;
              try ' (st1, id) <- insert_new_arc (n_right l) (n_left r) ev (Some rid) st0;
              try st2 <- activate_circle_event G (n_left l) (n_right l) ev id st1;
              try st3 <- activate_circle_event G ev' (n_left r) (n_right r) rid st2;
              Ok (st3, Some id)
          end
      end
  end.
Fixpoint site_steps (G : geometry) (evs : list sev) (right_it : option nat) (st : vst) : outcome vst :=
  match evs with
  | [] => Ok st
  | ev :: evs' => try ' (st1, it) <- site_step G ev right_it st; site_steps G evs' it st1
  end.
(* end_points_ is a priority queue: its top is the least point. The loop 287-293
   removes the tops that equal the new site. *)
Fixpoint erase_all (ids : list nat) (l : list node) : outcome (list node) :=
  match ids with [] => Ok l | i :: ids' => try l' <- bl_erase i l; erase_all ids' l' end.
Definition ended (p : point) (ends : list (point * nat)) : list (point * nat) :=
  if existsb (fun e => point_before (fst e) p) ends then [] else filter (fun e => pt_eqb (fst e) p) ends.
Definition not_ended (p : point) (ends : list (point * nat)) : list (point * nat) :=
  if existsb (fun e => point_before (fst e) p) ends then ends else filter (fun e => negb (pt_eqb (fst e) p)) ends.
(* 295-298: the segments that start at the same point come together *)
Fixpoint same_start (p : point) (l : list sev) : list sev * list sev :=
  match l with
  | s :: t => if sev_segment s && pt_eqb (e_p0 s) p then let '(a, b) := same_start p t in (s :: a, b) else ([], l)
  | [] => ([], [])
  end.
Definition it_at (l : list node) (i : nat) : option nat := option_map n_id (nth_error l i).
Definition process_site_event (G : geometry) (st : vst) : outcome vst :=
  match st_sites st with
  | [] => Undefined
  | s :: rest =>
      if negb (sev_segment s) then
        try l <- erase_all (map snd (ended (e_p0 s) (st_ends st))) (st_beach st);
        let st1 := mk_vst rest l (st_queue st) (not_ended (e_p0 s) (st_ends st)) (st_fresh st) (st_out st) in
        site_steps G [s] (it_at l (g_lower_bound G l s)) st1
      else
        let '(group, rest') := same_start (e_p0 s) rest in
        let st1 := mk_vst rest' (st_beach st) (st_queue st) (st_ends st) (st_fresh st) (st_out st) in
        site_steps G (s :: group) (it_at (st_beach st) (g_lower_bound G (st_beach st) s)) st1
  end.
(* the index of the top of the event queue *)
Definition top_index (G : geometry) (q : list qev) : nat := Nat.min (g_top G q) (length q - 1).
Fixpoint remove_nth {A : Type} (i : nat) (l : list A) : list A :=
  match l, i with
  | [], _ => []
  | _ :: t, O => t
  | a :: t, S j => a :: remove_nth j t
  end.
(* process_circle_event 379-427 *)
Definition process_circle_event (G : geometry) (st : vst) : outcome vst :=
  match nth_error (st_queue st) (top_index G (st_queue st)) with
  | None => Undefined
  | Some e =>
      match bl_split (q_node e) (st_beach st) with
      | None => Undefined
      | Some (pre, n, post) =>
          match split_last pre with
          | None => Undefined
          | Some (pre', m) =>
              let site1 := n_left m in
              let site3 := n_right n in
              let site3 := if negb (sev_segment site1) && sev_segment site3 && pt_eqb (e_p1 site3) (e_p0 site1) then sev_inverse site3 else site3 in
              try ' (out, (e1, _)) <- insert_circle_edge site1 site3 (q_circle e) (n_edge m) (n_edge n) (st_out st);
              let m' := mk_node (n_id m) site1 site3 e1 (n_circle m) in
              let st1 := mk_vst (st_sites st) (pre' ++ m' :: post) (remove_nth (top_index G (st_queue st)) (st_queue st)) (st_ends st) (st_fresh st) out in
              try st2 <- match split_last pre' with
                         | None => Ok st1
                         | Some (_, l) =>
                             try s <- deactivate_circle_event (n_id m) st1;
                             activate_circle_event G (n_left l) site1 site3 (n_id m) s
                         end;
              match post with
              | [] => Ok st2
              | r :: _ =>
                  try s <- deactivate_circle_event (n_id r) st2;
                  activate_circle_event G site1 site3 (n_right r) (n_id r) s
              end
          end
      end
  end.
(* init_beach_line 189-267 *)
Fixpoint skip_vertical (x : Z) (l : list sev) : list sev * list sev :=
  match l with
  | s :: t => if (px (e_p0 s) =? x) && sev_vertical s then let '(a, b) := skip_vertical x t in (s :: a, b) else ([], l)
  | [] => ([], [])
  end.
Fixpoint init_collinear (first : sev) (l : list sev) (st : vst) : outcome vst :=
  match l with
  | [] => Ok st
  | second :: l' =>
      try ' (out, (e1, _)) <- insert_site_edge first second (st_out st);
      init_collinear second l'
        (mk_vst (st_sites st) (st_beach st ++ [mk_node (st_fresh st) first second e1 None]) (st_queue st) (st_ends st) (S (st_fresh st)) out)
  end.
Definition init_beach_line (sites : list sev) (out : diagram) : outcome vst :=
  match sites with
  | [] => Ok (mk_vst [] [] [] [] 0 out)
  | [s] => try out' <- process_single_site s out; Ok (mk_vst [] [] [] [] 0 out')
  | s :: _ =>
      match skip_vertical (px (e_p0 s)) sites with
      | ([_], second :: rest) => try ' (st, _) <- insert_new_arc s s second None (mk_vst rest [] [] [] 0 out); Ok st
      | (first :: l, rest) => init_collinear first l (mk_vst rest [] [] [] 0 out)
      | _ => Undefined
      end
  end.
(* construct 98-129. The queue of sites has been sorted (VorModel.v, C44);
   [reserved] is the number of sites before the removal of duplicates. *)
Fixpoint pop_inactive (fuel : nat) (G : geometry) (q : list qev) : list qev :=
  match fuel with
  | O => q
  | S fuel' =>
      match nth_error q (top_index G q) with
      | Some e => if negb (q_active e) then pop_inactive fuel' G (remove_nth (top_index G q) q) else q
      | None => q
      end
  end.
Definition sweep_step (G : geometry) (st : vst) : outcome vst :=
  try st1 <-
    match st_queue st with
    | [] => process_site_event G st
    | _ =>
        match st_sites st with
        | [] => process_circle_event G st
        | s :: _ =>
            match nth_error (st_queue st) (top_index G (st_queue st)) with
            | None => Undefined
            | Some e => if g_site_first G s (q_circle e) then process_site_event G st else process_circle_event G st
            end
        end
    end;
  Ok (with_queue (pop_inactive (length (st_queue st1)) G (st_queue st1)) st1).
Definition finished (st : vst) : bool :=
  match st_queue st, st_sites st with [], [] => true | _, _ => false end.
Fixpoint sweep (fuel : nat) (G : geometry) (st : vst) : outcome vst :=
  if finished st then Ok st
  else match fuel with O => Undefined | S fuel' => try st1 <- sweep_step G st; sweep fuel' G st1 end.
Definition sweep_fuel (sites : list sev) : nat := 3 * length sites.
Definition construct_sweep (G : geometry) (reserved : nat) (sites : list sev) : outcome vst :=
  try st <- init_beach_line sites (dg_reserve reserved);
  sweep (sweep_fuel sites) G st.
Definition construct (G : geometry) (reserved : nat) (sites : list sev) : outcome diagram :=
  try st <- construct_sweep G reserved sites; build (st_out st).
