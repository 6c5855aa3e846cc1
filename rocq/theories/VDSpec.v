(* Specification vocabulary for the Voronoi diagram: what the getters of the
   half-edges return, and when a half-edge structure is consistent. *)
From Verif Require Import Base VorSpec VDModel.
Local Open Scope nat_scope.

(* the value of a field of edge number i; None also outside of the vector *)
Definition fld {A : Type} (f : dart -> option A) (E : list dart) (i : nat) : option A :=
  match nth_error E i with Some d => f d | None => None end.
Definition cl (E : list dart) (i : nat) : option nat := fld d_cell E i.
Definition vx (E : list dart) (i : nat) : option nat := fld d_vertex E i.
Definition tn (E : list dart) (i : nat) : option nat := fld d_twin E i.
Definition nx (E : list dart) (i : nat) : option nat := fld d_next E i.
Definition pv (E : list dart) (i : nat) : option nat := fld d_prev E i.
Definition col (E : list dart) (i : nat) : option Z := fld (fun d => Some (d_color d)) E i.

(* rot_next of voronoi_edge: the next edge around the vertex *)
Definition around (E : list dart) (i : nat) : option nat := match pv E i with Some j => tn E j | None => None end.
(* from x to y by following f *)
Inductive reach (f : nat -> option nat) : nat -> nat -> Prop :=
| reach_refl x : reach f x x
| reach_step x y z : f x = Some y -> reach f y z -> reach f x z.
(* following f from x leads back to x *)
Definition loops (f : nat -> option nat) (x : nat) : Prop := exists y, f x = Some y /\ reach f y x.

(* a consistent half-edge structure with C cells *)
Record half_edges (C : nat) (E : list dart) : Prop := mk_half_edges {
  (* every edge has a twin different from it, whose twin it is *)
  he_twin : forall i, i < length E -> exists j, tn E i = Some j /\ j < length E /\ j <> i /\ tn E j = Some i;
  (* every edge belongs to a cell *)
  he_cell : forall i, i < length E -> exists c, cl E i = Some c /\ c < C;
  (* next and prev undo each other *)
  he_next : forall i j, nx E i = Some j -> j < length E /\ pv E j = Some i;
  he_prev : forall i j, pv E i = Some j -> j < length E /\ nx E j = Some i;
  (* next stays in the cell *)
  he_next_cell : forall i j, nx E i = Some j -> cl E j = cl E i;
  (* and starts where the edge ends, or both are infinite there *)
  he_next_vertex : forall i j t, nx E i = Some j -> tn E i = Some t -> vx E j = vx E t
}.
(* the ends of the edges are vertices of the diagram *)
Definition ends_in (V : nat) (E : list dart) : Prop := forall i v, vx E i = Some v -> v < V.

(* Two vertices coincide for the library if both coordinates differ by at most 128
   units in the last place ([vertex_same]). The short edges of a diagram in which
   edges 2k and 2k+1 are twins: those between vertices that coincide. *)
Definition short_edge (V : list vvertex) (E : list dart) (k : nat) : list (nat * nat) :=
  match vx E (2 * k), vx E (2 * k + 1) with
  | Some u, Some w => match nth_error V u, nth_error V w with
                      | Some a, Some b => if vertex_same a b then [(u, w)] else []
                      | _, _ => []
                      end
  | _, _ => []
  end.
Definition short_edges (V : list vvertex) (E : list dart) (n : nat) : list (nat * nat) := flat_map (short_edge V E) (seq 0 n).
(* joined by a path of edges from the list *)
Inductive joined (D : list (nat * nat)) : nat -> nat -> Prop :=
| joined_edge u w : In (u, w) D -> joined D u w
| joined_refl u : joined D u u
| joined_sym u w : joined D u w -> joined D w u
| joined_trans u w x : joined D u w -> joined D w x -> joined D u x.
(* no edge closes a cycle with the edges before it *)
Definition forest (D : list (nat * nat)) : Prop := forall D1 u w D2, D = D1 ++ (u, w) :: D2 -> ~ joined D1 u w.
(* vertices come in groups: whether two vertices coincide depends on their groups *)
Definition clustered (V : list vvertex) : Prop :=
  forall a b c, In a V -> In b V -> In c V -> vertex_same a b = true -> vertex_same a c = vertex_same b c.
(* The edges lie on parallel lines: the second half of an edge and the first half of
   the next edge belong to the same cell. *)
Definition rows (E : list dart) : Prop := forall k, 2 * k + 2 < length E -> cl E (2 * k + 1) = cl E (2 * k + 2).

(* g' comes from g by the final step of the construction: every edge i of g' is edge
   o i of g *)
Record built (g g' : diagram) (o : nat -> nat) : Prop := mk_built {
  bt_cap : dg_cap g' = dg_cap g;
  (* the edges that are left keep their order, twin, cell and flags *)
  bt_in : forall i, i < length (dg_edges g') -> o i < length (dg_edges g);
  bt_order : forall i j, i < j -> j < length (dg_edges g') -> o i < o j;
  bt_twin : forall i, i < length (dg_edges g') -> exists j, tn (dg_edges g') i = Some j /\ j < length (dg_edges g') /\ tn (dg_edges g) (o i) = Some (o j);
  bt_cell : forall i, i < length (dg_edges g') -> cl (dg_edges g') i = cl (dg_edges g) (o i);
  bt_col : forall i, i < length (dg_edges g') -> col (dg_edges g') i = col (dg_edges g) (o i);
  (* the cells keep their site and flags, and know one of their edges if there is one *)
  bt_ncells : length (dg_cells g') = length (dg_cells g);
  bt_cells : forall c a, nth_error (dg_cells g) c = Some a -> exists b, nth_error (dg_cells g') c = Some b /\ c_source b = c_source a /\ c_color b = c_color a /\
    match c_incident b with Some i => cl (dg_edges g') i = Some c | None => forall i, cl (dg_edges g') i <> Some c end;
  (* the half-edge structure is consistent *)
  bt_edges : (dg_vertices g' = [] -> rows (dg_edges g')) -> half_edges (length (dg_cells g')) (dg_edges g');
  (* the boundary of a cell closes *)
  bt_close : dg_vertices g' <> [] -> forall c a i, nth_error (dg_cells g') c = Some a -> c_incident a = Some i -> loops (nx (dg_edges g')) i;
  (* without vertices all edges are lines, whose ends are linked *)
  bt_lines : dg_vertices g' = [] -> forall i, i < length (dg_edges g') -> vx (dg_edges g') i = None /\ nx (dg_edges g') i <> None /\ pv (dg_edges g') i <> None
}.
(* what happens to the vertices *)
Record merged (g g' : diagram) (o : nat -> nat) : Prop := mk_merged {
  mg_ends : ends_in (length (dg_vertices g')) (dg_edges g');
  (* the edges between vertices that coincide are gone, all others are left *)
  mg_kept : forall k, 2 * k < length (dg_edges g) -> ((exists i, i < length (dg_edges g') /\ o i = 2 * k) <-> short_edge (dg_vertices g) (dg_edges g) k = []);
  (* an edge starts where it started, up to the tolerance *)
  mg_place : forall i, i < length (dg_edges g') ->
    match vx (dg_edges g) (o i), vx (dg_edges g') i with
    | Some u, Some v => exists a b, nth_error (dg_vertices g) u = Some a /\ nth_error (dg_vertices g') v = Some b /\ vertex_same a b = true
    | None, None => True
    | _, _ => False
    end;
  (* vertices joined by removed edges, and only these, have become one *)
  mg_join : forall i j u w v v', i < length (dg_edges g') -> j < length (dg_edges g') -> vx (dg_edges g) (o i) = Some u -> vx (dg_edges g) (o j) = Some w ->
    vx (dg_edges g') i = Some v -> vx (dg_edges g') j = Some v' -> (v = v' <-> joined (short_edges (dg_vertices g) (dg_edges g) (Nat.div2 (length (dg_edges g)))) u w);
  (* the vertices are old vertices and know an edge that starts there *)
  mg_vertex : forall v b, nth_error (dg_vertices g') v = Some b ->
    (exists u a, nth_error (dg_vertices g) u = Some a /\ v_x b = v_x a /\ v_y b = v_y a /\ v_color b = v_color a) /\ exists i, v_incident b = Some i /\ vx (dg_edges g') i = Some v;
  (* going around a vertex meets all edges that start there *)
  mg_around : forall i j v, vx (dg_edges g') i = Some v -> vx (dg_edges g') j = Some v -> reach (around (dg_edges g')) i j
}.
