(* Model of class polygon_90_set_data (polygon_90_set_data.hpp) and of the
   operators of detail/polygon_90_set_view.hpp on it, with 32-bit coordinates.

   Mutable members (data_, dirty_, unsorted_ are mutable) are made explicit: a
   const member function that normalises returns the new object. *)
From Verif Require Import Base Scan90Spec BoolOpModel IsoSpec IsoModel Set90Spec.
From Verif Require Export Outcome Poly90Model.

(* members: polygon_90_set_data.hpp:784-787 *)
Record pset : Type := mk_ps {
  ps_orient : orient; ps_data : list vertex; ps_dirty : bool; ps_unsorted : bool }.

(* the winding count of a cell that the vertex data stands for; the set covers
   the cells with a positive count *)
Definition ps_count (s : pset) : winding := wind (ps_orient s) (ps_data s).
Definition ps_covers (s : pset) (x y : Z) : Prop := 0 < ps_count s x y.

(* constructors, lines 42-45 *)
Definition ps_new (o : orient) : pset := mk_ps o [] false false.
(* clear, line 230 *)
Definition ps_clear (s : pset) : pset := mk_ps (ps_orient s) [] false false.

(* polygon_sort = std::sort with operator< of std::pair: lexicographic by
   (first, second.first, second.second). Sorting by a total order: any sorting
   algorithm gives the same list. *)
Definition vleb (v w : vertex) : bool :=
  (vx v <? vx w) || ((vx v =? vx w) && ((vy v <? vy w) || ((vy v =? vy w) && (vc v <=? vc w)))).
Fixpoint vinsert (v : vertex) (l : list vertex) : list vertex :=
  match l with [] => [v] | w :: l' => if vleb v w then v :: l else w :: vinsert v l' end.
Fixpoint vsort (l : list vertex) : list vertex :=
  match l with [] => [] | v :: l' => vinsert v (vsort l') end.

(* sort, lines 299-304 *)
Definition ps_sort (s : pset) : pset :=
  if ps_unsorted s then mk_ps (ps_orient s) (vsort (ps_data s)) (ps_dirty s) false else s.

(* clean, lines 291-297 *)
Definition ps_clean (s : pset) : option pset :=
  let s1 := ps_sort s in
  if ps_dirty s1 then
    do out <- applyBooleanOr INT_MAX (ps_data s1);
    Some (mk_ps (ps_orient s1) out false (ps_unsorted s1))
  else Some s1.

(* std::swap(first, second.first), line 144 *)
Definition vswap (v : vertex) : vertex := (vy v, (vx v, vc v)).

(* insert(vertex, is_hole, orient), lines 141-148 *)
Definition ps_insert_vertex (s : pset) (v : vertex) (is_hole : bool) (o : orient) : pset :=
  let v1 := if orient_eqb o (ps_orient s) then v else vswap v in
  let v2 := if is_hole then (vx v1, (vy v1, vc v1 * -1)) else v1 in
  mk_ps (ps_orient s) (ps_data s ++ [v2]) true true.

(* insert(begin, end, orient), lines 93-105, without the check for insertion of
   the own data, which is made by the callers *)
Definition ps_insert_range (s : pset) (l : list vertex) (o : orient) : pset :=
  match l with
  | [] => s
  | _ => mk_ps (ps_orient s)
           (ps_data s ++ if orient_eqb o (ps_orient s) then l else map vswap l) true true
  end.

(* iterator_geometry_to_set<rectangle_concept>, iterator_geometry_to_set.hpp:
   26-73: the four corners. get(rect, orient.get_perpendicular()) is the major
   interval. *)
Definition rect_vertices (o : orient) (is_hole : bool) (r : rect) : list vertex :=
  let c := if is_hole then -1 else 1 in
  let '(mjl, mjh, mnl, mnh) :=
    match o with
    | Vertical => (xl r, xh r, yl r, yh r)
    | Horizontal => (yl r, yh r, xl r, xh r)
    end in
  [(mjl, (mnl, c)); (mjl, (mnh, - c)); (mjh, (mnl, - c)); (mjh, (mnh, c))].

(* insert(geometry), lines 134-139 *)
Definition ps_insert_rect (s : pset) (r : rect) (is_hole : bool) : pset :=
  ps_insert_range s (rect_vertices (ps_orient s) is_hole r) (ps_orient s).

(* the same for a polygon_90_data or polygon_90_with_holes_data *)
Definition ps_insert_poly (s : pset) (p : poly90) (is_hole : bool) : outcome pset :=
  try l <- poly_vertices (ps_orient s) is_hole p;
  Ok (ps_insert_range s l (ps_orient s)).

(* insert(polygon_90_set_data), line 118-120; [self]: the argument is the object
   itself, then line 94 returns early if there is data, and if there is none the
   range is empty *)
Definition ps_insert_set (self : bool) (s t : pset) : pset :=
  if self then s else ps_insert_range s (ps_data t) (ps_orient t).

(* functors of the operators *)
Definition bop_functor (f : bop) : Z -> Z -> bool :=
  match f with OpOr => BinaryOr | OpAnd => BinaryAnd | OpXor => BinaryXor | OpSub => BinaryNot end.

(* insert_into_view_arg on a fresh set of orientation o, view.hpp:201-209 *)
Definition view_arg (o : orient) (t : pset) : pset :=
  ps_sort (ps_insert_range (ps_new o) (ps_data t) (ps_orient t)).

(* compute_90_set_value for two polygon_90_set_data, view.hpp:55-86, with
   orient_ the orientation of the left argument (operator|, 291-297 and the
   others): the left one is only sorted, the right one converted if necessary *)
Definition view_value (f : bop) (a b : pset) : option (list vertex) :=
  if orient_eqb (ps_orient a) (ps_orient b) then
    applyBooleanBinaryOp (bop_functor f) INT_MAX (ps_data (ps_sort a)) (ps_data (ps_sort b))
  else
    applyBooleanBinaryOp (bop_functor f) INT_MAX (ps_data (ps_sort a))
      (ps_data (view_arg (ps_orient a) b)).

(* operator=(view), view.hpp:211-218 *)
Definition ps_assign_view (f : bop) (a b : pset) : option pset :=
  do out <- view_value f a b;
  Some (mk_ps (ps_orient a) out false false).

(* the right operand after the evaluation: it has been sorted in place if it was
   used directly; the left one is always sorted in place *)
Definition view_right_after (a b : pset) : pset :=
  if orient_eqb (ps_orient a) (ps_orient b) then ps_sort b else b.

(* the specialisation for a left operand of another set type (a view or a
   vector of rectangles) and a right operand that is a polygon_90_set_data,
   view.hpp:103-118: the right one is sorted but not converted to orient_ *)
Definition view_value_left_other (f : bop) (a b : pset) : option (list vertex) :=
  applyBooleanBinaryOp (bop_functor f) INT_MAX
    (ps_data (view_arg (ps_orient a) a)) (ps_data (ps_sort b)).

(* self_assignment_boolean_op, view.hpp:235-262, followed by
   polygon_90_set_mutable_traits::set, polygon_90_set_traits.hpp:304-315. Used by
   &=, *=, ^=, -=; with OpOr it is the |= of other mutable set types, that of
   polygon_90_set_data itself is ps_insert_set (view.hpp:352-377). *)
Definition ps_bin_assign (f : bop) (a b : pset) : option pset :=
  do out <- applyBooleanBinaryOp (bop_functor f) INT_MAX
              (ps_data (view_arg (ps_orient a) a)) (ps_data (view_arg (ps_orient a) b));
  Some (ps_insert_range (ps_clear a) out (ps_orient a)).

(* move, lines 676-689 *)
Definition map_vertices (g : vertex -> outcome vertex) : list vertex -> outcome (list vertex) :=
  fix go (l : list vertex) : outcome (list vertex) :=
    match l with
    | [] => Ok []
    | v :: l' => try v' <- g v; try l'' <- go l'; Ok (v' :: l'')
    end.
Definition ps_move (dx dy : Z) (s : pset) : outcome pset :=
  let '(da, db) := match ps_orient s with Vertical => (dx, dy) | Horizontal => (dy, dx) end in
  try d <- map_vertices (fun v =>
             try a <- chk (vx v + da); try b <- chk (vy v + db); Ok (a, (b, vc v))) (ps_data s);
  Ok (mk_ps (ps_orient s) d (ps_dirty s) (ps_unsorted s)).

(* transformation::transform on int coordinates, transform.hpp:441-445, and
   axis_transformation::transform, 227-235: the subtraction and the
   multiplication by -1 are checked; an axis transformation has px = py = 0 *)
Definition iso_transform (t : isometry) (x y : Z) : outcome (Z * Z) :=
  try y1 <- chk (y - iso_py t);
  try x1 <- chk (x - iso_px t);
  let '(x2, y2) := atr_transform (iso_atr t) (x1, y1) in
  try x3 <- chk x2;
  try y3 <- chk y2;
  Ok (x3, y3).

(* transform, lines 691-709 *)
Definition ps_transform (t : isometry) (s : pset) : outcome pset :=
  let '(dir1, dir2) := get_directions (iso_atr t) in
  let sign := d2_get_sign dir1 * d2_get_sign dir2 in
  try d <- map_vertices (fun v =>
             match ps_orient s with
             | Vertical => try ' (a, b) <- iso_transform t (vx v) (vy v); Ok (a, (b, vc v * sign))
             | Horizontal => try ' (b, a) <- iso_transform t (vy v) (vx v); Ok (a, (b, vc v * sign))
             end) (ps_data s);
  Ok (mk_ps (ps_orient s) d (ps_dirty s)
        (if negb (dir1 =? EAST) || negb (dir2 =? NORTH) then true else ps_unsorted s)).

(* scale_up, lines 712-719 *)
Definition ps_scale_up (k : Z) (s : pset) : outcome pset :=
  try d <- map_vertices (fun v =>
             try a <- chk (vx v * k); try b <- chk (vy v * k); Ok (a, (b, vc v))) (ps_data s);
  Ok (mk_ps (ps_orient s) d (ps_dirty s) (ps_unsorted s)).

(* scale_down, lines 720-730: floor(v / k + 0.5) in doubles (isotropy.hpp
   scaling_policy); written with exact rationals. Only unsorted_ is set. *)
Definition round_div (v k : Z) : Z := (2 * v + k) / (2 * k).
Definition ps_scale_down (k : Z) (s : pset) : pset :=
  mk_ps (ps_orient s) (map (fun v => (round_div (vx v) k, (round_div (vy v) k, vc v))) (ps_data s))
    (ps_dirty s) true.

(* self_xor, lines 766-773 *)
Definition ps_self_xor (s : pset) : option pset :=
  let s1 := ps_sort s in
  if ps_dirty s1 then
    do out <- applyBooleanOr_unary INT_MAX (ps_data s1);
    Some (mk_ps (ps_orient s1) out false (ps_unsorted s1))
  else Some s1.

(* self_intersect, lines 775-784 *)
Definition ps_self_intersect (s : pset) : option pset :=
  let s1 := ps_sort s in
  if ps_dirty s1 then
    ps_clean (ps_insert_rect s1 (mk_rect INT_MIN INT_MAX INT_MIN INT_MAX) true)
  else Some s1.

(* empty, line 233 *)
Definition ps_empty (s : pset) : option (bool * pset) :=
  do s1 <- ps_clean s;
  Some (match ps_data s1 with [] => true | _ => false end, s1).

(* std::vector operator== *)
Fixpoint data_eqb (a b : list vertex) : bool :=
  match a, b with
  | [], [] => true
  | v :: a', w :: b' => (vx v =? vx w) && (vy v =? vy w) && (vc v =? vc w) && data_eqb a' b'
  | _, _ => false
  end.

(* operator==, lines 196-204 *)
Definition ps_eq (s t : pset) : option (bool * (pset * pset)) :=
  if orient_eqb (ps_orient s) (ps_orient t) then
    do s1 <- ps_clean s;
    do t1 <- ps_clean t;
    Some (data_eqb (ps_data s1) (ps_data t1), (s1, t1))
  else Some (false, (s, t)).

(* equivalence, polygon_90_set_concept.hpp:61-75: both sets are assigned to fresh
   HORIZONTAL sets (traits set) which are compared *)
Definition ps_assign_set (o : orient) (t : pset) : pset :=
  ps_insert_range (ps_clear (ps_new o)) (ps_data t) (ps_orient t).
Definition ps_equivalence (s t : pset) : option bool :=
  do '(b, _) <- ps_eq (ps_assign_set Horizontal s) (ps_assign_set Horizontal t);
  Some b.

(* extents, lines 327-347: set_points (rectangle_concept.hpp:361-377) of the
   first and last vertex, then encompass (780-797) of the others *)
Definition ivl_construct (a b : Z) : Z * Z := if a >? b then (b, a) else (a, b).
Definition ivl_encompass (i : Z * Z) (c : Z) : Z * Z := (Z.min (fst i) c, Z.max (snd i) c).
Definition vertex_point (o : orient) (v : vertex) : Z * Z :=
  match o with Horizontal => (vy v, vx v) | Vertical => (vx v, vy v) end.
Definition rect_encompass (r : rect) (p : Z * Z) : rect :=
  let h := ivl_encompass (xl r, xh r) (fst p) in
  let v := ivl_encompass (yl r, yh r) (snd p) in
  mk_rect (fst h) (snd h) (fst v) (snd v).
Definition ps_extents (s : pset) : option (option rect * pset) :=
  do s1 <- ps_clean s;
  match ps_data s1 with
  | [] => Some (None, s1)
  | v0 :: rest =>
      let o := ps_orient s1 in
      let vn := last rest v0 in
      let p := vertex_point o v0 in
      let q := vertex_point o vn in
      let h := ivl_construct (fst p) (fst q) in
      let v := ivl_construct (snd p) (snd q) in
      let r0 := mk_rect (fst h) (snd h) (fst v) (snd v) in
      (* the loop runs over the indices 1 .. size-2 *)
      Some (Some (fold_left (fun r w => rect_encompass r (vertex_point o w)) (removelast rest) r0), s1)
  end.

(* ---------- a store of variables ---------- *)
Definition store : Type := nat -> pset.
Definition upd (st : store) (i : nat) (s : pset) : store :=
  fun j => if Nat.eqb j i then s else st j.
Definition start : store := fun _ => ps_new Horizontal.

Definition step (st : store) (o : op) : outcome (store * list answer) :=
  match o with
  | ONew i o => Ok (upd st i (ps_new o), [])
  | OCopy i j => Ok (upd st i (st j), [])
  | OClear i => Ok (upd st i (ps_clear (st i)), [])
  | OInsertRect i r hole => Ok (upd st i (ps_insert_rect (st i) r hole), [])
  | OInsertPoly i p hole => try s <- ps_insert_poly (st i) p hole; Ok (upd st i s, [])
  | OInsertSet i j => Ok (upd st i (ps_insert_set (Nat.eqb i j) (st i) (st j)), [])
  | OBin k f i j =>
      try s <- lift (ps_assign_view f (st i) (st j));
      Ok (upd (upd (upd st i (ps_sort (st i))) j (view_right_after (st i) (st j))) k s, [])
  | OBinAssign i f j => try s <- lift (ps_bin_assign f (st i) (st j)); Ok (upd st i s, [])
  | OMove i dx dy => try s <- ps_move dx dy (st i); Ok (upd st i s, [])
  | OTransform i t => try s <- ps_transform t (st i); Ok (upd st i s, [])
  | OScaleUp i k => try s <- ps_scale_up k (st i); Ok (upd st i s, [])
  | OSelfXor i => try s <- lift (ps_self_xor (st i)); Ok (upd st i s, [])
  | OSelfIntersect i => try s <- lift (ps_self_intersect (st i)); Ok (upd st i s, [])
  | OClean i => try s <- lift (ps_clean (st i)); Ok (upd st i s, [])
  | QEmpty i => try ' (b, s) <- lift (ps_empty (st i)); Ok (upd st i s, [ABool b])
  | QEq i j =>
      try ' (b, (s, t)) <- lift (ps_eq (st i) (st j));
      Ok (upd (upd st i s) j t, [ABool b])
  | QEquiv i j => try b <- lift (ps_equivalence (st i) (st j)); Ok (st, [ABool b])
  | QExtents i => try ' (r, s) <- lift (ps_extents (st i)); Ok (upd st i s, [ARect r])
  end.

Fixpoint run (st : store) (ops : list op) : outcome (store * list answer) :=
  match ops with
  | [] => Ok (st, [])
  | o :: ops' =>
      try ' (st1, out) <- step st o;
      try ' (st2, outs) <- run st1 ops';
      Ok (st2, out ++ outs)
  end.

(* stores that arise in histories of accepted calls *)
Definition reachable (st : store) : Prop :=
  exists ops outs, Forall op_ok ops /\ run start ops = Ok (st, outs).

(* a nested operator expression, every subexpression assigned to a set *)
Fixpoint eval_bexp (st : store) (e : bexp) : option pset :=
  match e with
  | BVar i => Some (st i)
  | BBin f e1 e2 =>
      do s1 <- eval_bexp st e1;
      do s2 <- eval_bexp st e2;
      ps_assign_view f s1 s2
  end.
