(* What a set of edges with counts says about the plane. *)
From Verif Require Import Base Units Poly90Spec GeoSpec PolySpec SnapSpec.
From Coq Require Import Reals Sorting.Sorted.

Fixpoint tot {A : Type} (f : A -> Z) (l : list A) : Z :=
  match l with [] => 0 | a :: l' => f a + tot f l' end.

(* an edge, the property (the polygon set) it belongs to, its count *)
Definition medge : Type := (seg * (Z * Z))%type.
(* how much the edge counts for property k *)
Definition wt (k : Z) (e : medge) : Z := if fst (snd e) =? k then snd (snd e) else 0.

(* edges are given from the lexicographically lower end to the other one *)
Definition ordered (s : seg) : Prop := lex_lt (s_low s) (s_high s) = true.
Definition vertical_edge (s : seg) : bool := px (s_low s) =? px (s_high s).
(* the multiplicity of an edge as a directed curve from s_low to s_high *)
Definition along (k : Z) (e : medge) : Z := if vertical_edge (fst e) then - wt k e else wt k e.
(* as many curves come to a vertex as leave it *)
Definition eq_pt (p q : point) : bool := (px p =? px q) && (py p =? py q).
Definition closed (l : list medge) : Prop :=
  forall k v, tot (fun e => if eq_pt (s_low (fst e)) v then along k e else 0) l =
              tot (fun e => if eq_pt (s_high (fst e)) v then along k e else 0) l.

Local Open Scope R_scope.
(* the ordinate of an edge that is not vertical *)
Definition height (s : seg) (x : R) : R :=
  IZR (py (s_low s)) + (x - IZR (px (s_low s))) * ((IZR (py (s_high s)) - IZR (py (s_low s))) / (IZR (px (s_high s)) - IZR (px (s_low s)))).
Definition rltb (x y : R) : bool := if Rlt_dec x y then true else false.
Definition rleb (x y : R) : bool := if Rle_dec x y then true else false.
(* the edge has points just to the right, just to the left of x *)
Definition spans_r (s : seg) (x : R) : bool := rleb (IZR (px (s_low s))) x && rltb x (IZR (px (s_high s))).
Definition spans_l (s : seg) (x : R) : bool := rltb (IZR (px (s_low s))) x && rleb x (IZR (px (s_high s))).
(* how often property k covers the plane just below (x, y), just above (x, y):
   the counts of the edges below are summed up. Edges that begin or end at x are
   counted as they are just to the right of x, in the third case just to the left *)
Definition depth_below (l : list medge) (k : Z) (x y : R) : Z :=
  tot (fun e => if spans_r (fst e) x && rltb (height (fst e) x) y then wt k e else 0%Z) l.
Definition depth_above (l : list medge) (k : Z) (x y : R) : Z :=
  tot (fun e => if spans_r (fst e) x && rleb (height (fst e) x) y then wt k e else 0%Z) l.
Definition depth_below_left (l : list medge) (k : Z) (x y : R) : Z :=
  tot (fun e => if spans_l (fst e) x && rltb (height (fst e) x) y then wt k e else 0%Z) l.
(* the list, in ascending order, of the properties that cover the plane *)
Definition cover_list (depth : Z -> Z) (ks : list Z) : Prop :=
  StronglySorted Z.lt ks /\ forall k, In k ks <-> (0 < depth k)%Z.
(* the properties on the two sides of an edge, all along the edge. Left and right are
   seen looking from the lower to the higher end: left is above for an edge that is
   not vertical *)
Definition sides (l : list medge) (e : seg) (L R : list Z) : Prop :=
  (px (s_low e) < px (s_high e)) % Z /\
    (forall x, IZR (px (s_low e)) < x < IZR (px (s_high e)) ->
      cover_list (fun k => depth_above l k x (height e x)) L /\ cover_list (fun k => depth_below l k x (height e x)) R) \/
  px (s_low e) = px (s_high e) /\
    (forall y, IZR (py (s_low e)) < y < IZR (py (s_high e)) ->
      cover_list (fun k => depth_below_left l k (IZR (px (s_low e))) y) L /\ cover_list (fun k => depth_below l k (IZR (px (s_low e))) y) R).
(* the four operations, in the order of the op codes of detail/scan_arbitrary.hpp:2600-2605,
   and what they do *)
Inductive bool_op : Type := OpOr | OpAnd | OpXor | OpNot.
Definition keeps (op : bool_op) (a b : bool) : bool :=
  match op with OpOr => a || b | OpAnd => a && b | OpXor => xorb a b | OpNot => a && negb b end.
(* a set of edges that belongs to property 0 *)
Definition as_set (r : list (seg * Z)) : list medge := map (fun e => (fst e, (0%Z, snd e))) r.
(* 1 in the plane that the operation keeps, 0 elsewhere *)
Definition kept (op : bool_op) (depth : Z -> Z) : Z := if keeps op (0 <? depth 0)%Z (0 <? depth 1)%Z then 1%Z else 0%Z.

(* The winding number of a closed curve around the points just below (x, y): the edges
   below that cross the abscissa from left to right minus those from right to left. *)
Definition crossing_r (x y : R) (e : point * point) : Z :=
  let (a, b) := e in
  if rleb (IZR (px a)) x && rltb x (IZR (px b)) && rltb (height (mk_seg a b) x) y then 1%Z
  else if rleb (IZR (px b)) x && rltb x (IZR (px a)) && rltb (height (mk_seg b a) x) y then (-1)%Z
  else 0%Z.
Definition winding_r (l : list point) (x y : R) : Z := zsum (crossing_r x y) (cyc_edges l).
(* counted positively if the signed area is positive *)
Definition oriented_r (l : list point) (x y : R) : Z := if (0 <? shoelace2 l)%Z then winding_r l x y else (- winding_r l x y)%Z.
(* of a polygon with holes *)
Definition poly_r (outer : list point) (holes : list (list point)) (x y : R) : Z :=
  (oriented_r outer x y - zsum (fun h => oriented_r h x y) holes)%Z.
(* no point of the edges in the open square of side length 2 around the point *)
Definition away (l : list seg) (x y : R) : Prop :=
  forall e x' y', In e l -> on_r e x' y' -> ~ (Rabs (x' - x) < 1 /\ Rabs (y' - y) < 1).
(* of several polygons *)
Definition rings (g : gpoly) : list (list point) := g_outer g :: g_holes g.
Definition polys_r (gs : list gpoly) (x y : R) : Z := zsum (fun g => poly_r (g_outer g) (g_holes g) x y) gs.
(* the edges of the polygons *)
Definition ring_segs (l : list point) : list seg := map (fun e => mk_seg (fst e) (snd e)) (cyc_edges l).
Definition polys_segs (gs : list gpoly) : list seg := flat_map ring_segs (flat_map rings gs).

Local Open Scope Z_scope.
(* a set of edges with counts: int coordinates, the least x excluded, differences that
   are an int too *)
Definition good_edges (a : list (seg * Z)) : Prop := forall e, In e a -> ordered (fst e) /\ fits (fst e) /\ - 2 ^ 31 < px (s_low (fst e)).
Definition covers (op : bool_op) (da db : Z) : Z := if keeps op (0 <? da) (0 <? db) then 1 else 0.
Definition axis_parallel (a : list (seg * Z)) : Prop := forall e, In e a -> px (s_low (fst e)) = px (s_high (fst e)) \/ py (s_low (fst e)) = py (s_high (fst e)).
Definition edge_fits (e : point * point) : Prop := fits (mk_seg (fst e) (snd e)) /\ - 2 ^ 31 < px (fst e) /\ - 2 ^ 31 < px (snd e).
Definition ring_fits (l : list point) : Prop := forall e, In e (cyc_edges l) -> edge_fits e.
Definition poly_fits (g : gpoly) : Prop := forall r, In r (rings g) -> ring_fits r.
