(* Model of the formation of polygons with holes from a clean set of edges in any
   direction: polygon_arbitrary_formation, detail/polygon_arbitrary_formation.hpp, with
   fractureHoles_ = 0, and get of polygon_set_data.hpp for polygons with holes, for int
   coordinates. *)
From Verif Require Import Base Units Outcome Scan90Spec Poly90Spec Poly90Model Set90Spec Set90Model GeoSpec IvlModel RectModel SegModel PolySpec PolyModel ScanBaseModel SnapModel ArbSpec ArbModel ArbSetModel.

(* ---------- active tails, 889-1200 ---------- *)
(* A figure: the two active tails at its ends and the polyline that they share, with
   the holes of both tails. An active tail is a number, the address of the object; a
   number that no figure has is a null or dangling pointer. The tail with head_ is at
   the front of the polyline, the other one at its back. The order of the holes of a
   figure is not that of the code, which keeps a list for each tail. *)
Record chain : Type := mk_ch { ch_head : nat; ch_tail : nat; ch_pts : list point; ch_holes : list (list point) }.
(* the figures on the heap, the next address, the output *)
Record fstate : Type := mk_f { f_chains : list chain; f_next : nat; f_out : list gpoly }.

Definition owns (t : nat) (c : chain) : bool := Nat.eqb t (ch_head c) || Nat.eqb t (ch_tail c).
(* the figure of the tail, and the others *)
Fixpoint take_chain (t : nat) (l : list chain) : outcome (chain * list chain) :=
  match l with
  | [] => Undefined
  | c :: l' => if owns t c then Ok (c, l') else try ' (d, r) <- take_chain t l'; Ok (d, c :: r)
  end.
(* otherTailp_ *)
Definition other_tail (t : nat) (c : chain) : nat := if Nat.eqb t (ch_head c) then ch_tail c else ch_head c.

(* pushPoint, 1057-1099: at the front, and at the back *)
Definition push_front (p : point) (l : list point) : list point :=
  match l with
  | [] => [p]
  | [q] => [p; q]
  | q :: _ => if pt_eqb q p then l else p :: l
  end.
Definition push_back (p : point) (l : list point) : list point := rev (push_front p (rev l)).
Definition ch_push (t : nat) (p : point) (c : chain) : chain :=
  mk_ch (ch_head c) (ch_tail c) (if Nat.eqb t (ch_head c) then push_front p (ch_pts c) else push_back p (ch_pts c)) (ch_holes c).
Definition push_point (t : nat) (p : point) (st : fstate) : outcome fstate :=
  try ' (c, r) <- take_chain t (f_chains st);
  Ok (mk_f (ch_push t p c :: r) (f_next st) (f_out st)).

(* join, 983-1023: the polylines are spliced; a point that is there twice is dropped *)
Definition splice (a b : list point) : outcome (list point) :=
  match rev a, b with
  | x :: ra, y :: _ => Ok (if pt_eqb x y then rev ra ++ b else a ++ b)
  | _, _ => Undefined
  end.
(* 987-990: tails that are both heads are not joined; joinChains deletes them all the same *)
Definition ch_join (t1 : nat) (c1 : chain) (t2 : nat) (c2 : chain) : outcome chain :=
  if Nat.eqb t1 (ch_head c1) then
    if Nat.eqb t2 (ch_head c2) then Undefined
    else try l <- splice (ch_pts c2) (ch_pts c1); Ok (mk_ch (ch_head c2) (ch_tail c1) l (ch_holes c1 ++ ch_holes c2))
  else
    if Nat.eqb t2 (ch_head c2) then
      try l <- splice (ch_pts c1) (ch_pts c2); Ok (mk_ch (ch_head c1) (ch_tail c2) l (ch_holes c1 ++ ch_holes c2))
    else Undefined.
(* joinChains, 1106-1147: a figure that is closed is written out if it is solid, a hole is returned *)
Definition join_chains (p : point) (t1 t2 : nat) (solid : bool) (st : fstate) : outcome (fstate * option nat) :=
  try ' (c, r) <- take_chain t1 (f_chains st);
  if Nat.eqb t2 (other_tail t1 c) then
    let c' := ch_push t2 p (ch_push t1 p c) in
    if solid then Ok (mk_f r (f_next st) (f_out st ++ [mk_gpoly (ch_pts c') (ch_holes c')]), None)
    else Ok (mk_f (c' :: r) (f_next st) (f_out st), Some t1)
  else
    try ' (c2, r2) <- take_chain t2 r;
    try c3 <- ch_join t1 (ch_push t1 p c) t2 c2;
    Ok (mk_f (c3 :: r2) (f_next st) (f_out st), None).
(* addHole, 1028-1033 *)
Definition add_hole (t h : nat) (st : fstate) : outcome fstate :=
  try ' (hc, r) <- take_chain h (f_chains st);
  try ' (c, r2) <- take_chain t r;
  Ok (mk_f (mk_ch (ch_head c) (ch_tail c) (ch_pts c) (ch_holes c ++ ch_pts hc :: ch_holes hc) :: r2) (f_next st) (f_out st)).
(* createActiveTailsAsPair, 1180-1200 *)
Definition create_pair (p : point) (solid : bool) (hole : option nat) (st : fstate) : outcome (fstate * (nat * nat)) :=
  let a := f_next st in let b := S a in
  let c := if solid then mk_ch a b [p] [] else mk_ch b a [p] [] in
  let st' := mk_f (c :: f_chains st) (S b) (f_out st) in
  try st' <- match hole with None => Ok st' | Some h => add_hole b h st' end;
  Ok (st', (a, b)).

(* ---------- processPoint_, 1351-1630 ---------- *)
(* an element of the scan line: the edge, its count, its active tail *)
Definition felem : Type := (seg * (Z * nat))%type.
(* an entry of counts_from_scanline, and whether it is the last one and vertical *)
Definition cent : Type := ((Z * nat) * bool)%type.
(* an entry of incoming_count, and whether it is the last one and vertical *)
Definition ient : Type := ((point * Z) * bool)%type.
Definition c_count (e : cent) : Z := fst (fst e).
Definition i_count (e : ient) : Z := snd (fst e).

(* The loops of case 1, 1396-1418, and of case 2, 1421-1460: an entry with value a and the
   next one that is not zero, if it has value b, are handled and set to zero. The pairs
   in their order, and what is left. prev is the last entry that is not zero. *)
Fixpoint match_pairs {X : Type} (v : X -> Z) (a b : Z) (prev : option X) (l : list X) : list (X * X) * list X :=
  match l with
  | [] => ([], match prev with None => [] | Some y => [y] end)
  | x :: l' =>
      if v x =? 0 then let (ps, r) := match_pairs v a b prev l' in (ps, x :: r)
      else
        match prev with
        | None => match_pairs v a b (Some x) l'
        | Some y =>
            if (v y =? a) && (v x =? b) then let (ps, r) := match_pairs v a b None l' in ((y, x) :: ps, r)
            else let (ps, r) := match_pairs v a b (Some x) l' in (ps, y :: r)
        end
  end.
(* the first entry that is not zero, and the others *)
Fixpoint first_nz {X : Type} (v : X -> Z) (l : list X) : option (X * list X) :=
  match l with
  | [] => None
  | x :: l' => if v x =? 0 then match first_nz v l' with None => None | Some (y, r) => Some (y, x :: r) end else Some (x, l')
  end.
Definition last_nz {X : Type} (v : X -> Z) (l : list X) : option (X * list X) :=
  match first_nz v (rev l) with None => None | Some (y, r) => Some (y, rev r) end.

(* elements, returnCount.second, returnValue *)
Record pstate : Type := mk_ps { p_st : fstate; p_elems : list felem; p_rc : Z; p_rv : option nat }.
Definition p_set (s : pstate) (st : fstate) : pstate := mk_ps st (p_elems s) (p_rc s) (p_rv s).
(* the tail t goes on with the incoming edge: a new element, or the returned tail *)
Definition emit (p : point) (e : ient) (rc c : Z) (t : nat) (s : pstate) : pstate :=
  if snd e then mk_ps (p_st s) (p_elems s) rc (Some t)
  else mk_ps (p_st s) (p_elems s ++ [(mk_seg p (fst (fst e)), (c, t))]) (p_rc s) (p_rv s).

Fixpoint case1 (p : point) (ps : list (cent * cent)) (s : pstate) : outcome pstate :=
  match ps with
  | [] => Ok s
  | (x, y) :: ps' => try ' (st, _) <- join_chains p (snd (fst x)) (snd (fst y)) true (p_st s); case1 p ps' (p_set s st)
  end.
Fixpoint case2 (p : point) (ps : list (ient * ient)) (s : pstate) : outcome pstate :=
  match ps with
  | [] => Ok s
  | (x, y) :: ps' =>
      try ' (st, (a, b)) <- create_pair p true None (p_st s);
      let s := emit p y 1 (-1) a (p_set s st) in
      case2 p ps' (mk_ps (p_st s) (p_elems s ++ [(mk_seg p (fst (fst x)), (1, b))]) (p_rc s) (p_rv s))
  end.
(* case 3, 1466-1503: the solid goes on above *)
Definition case3 (p : point) (cs : list cent) (is : list ient) (s : pstate) : outcome (list cent * list ient * pstate) :=
  match first_nz c_count cs with
  | Some (c, cs') =>
      if c_count c =? 1 then
        match last_nz i_count is with
        | Some (i, is') =>
            if i_count i =? 1 then
              try st <- push_point (snd (fst c)) p (p_st s);
              Ok (cs', is', emit p i (-1) (i_count i) (snd (fst c)) (p_set s st))
            else Ok (cs, is, s)
        | None => Ok (cs, is, s)
        end
      else Ok (cs, is, s)
  | None => Ok (cs, is, s)
  end.
(* case 4, 1506-1545: the solid goes on below *)
Definition case4 (p : point) (cs : list cent) (is : list ient) (s : pstate) : outcome (list cent * list ient * pstate) :=
  match last_nz c_count cs with
  | Some (c, cs') =>
      if c_count c =? -1 then
        match first_nz i_count is with
        | Some (i, is') =>
            if i_count i =? -1 then
              try st <- push_point (snd (fst c)) p (p_st s);
              Ok (cs', is', emit p i 1 (i_count i) (snd (fst c)) (p_set s st))
            else Ok (cs, is, s)
        | None => Ok (cs, is, s)
        end
      else Ok (cs, is, s)
  | None => Ok (cs, is, s)
  end.
(* case 5, 1549-1576: the end of a hole *)
Definition case5 (p : point) (cs : list cent) (s : pstate) : outcome (list cent * pstate) :=
  match first_nz c_count cs with
  | Some (c, cs') =>
      match first_nz c_count cs' with
      | Some (c', cs'') =>
          try ' (st, h) <- join_chains p (snd (fst c)) (snd (fst c')) false (p_st s);
          Ok (cs'', mk_ps st (p_elems s) (p_rc s) h)
      | None => Ok (cs, s)
      end
  | None => Ok (cs, s)
  end.
(* the tail of the last entry if that is vertical and its tail is not null; the others *)
Definition vert_below (cs : list cent) : option (cent * list cent) :=
  match rev cs with c :: r => if snd c then Some (c, rev r) else None | [] => None end.
(* case 6, 1578-1617: the beginning of a hole *)
Definition case6 (p : point) (cs : list cent) (is : list ient) (s : pstate) : outcome (list cent * pstate) :=
  match first_nz i_count is with
  | Some (i, is') =>
      match first_nz i_count is' with
      | Some (j, _) =>
          let '(hole, cs) := match vert_below cs with Some (c, cs') => (Some (snd (fst c)), cs') | None => (None, cs) end in
          try ' (st, (a, b)) <- create_pair p false hole (p_st s);
          let s := emit p j (-1) (i_count j) a (p_set s st) in
          Ok (cs, mk_ps (p_st s) (p_elems s ++ [(mk_seg p (fst (fst i)), (i_count i, b))]) (p_rc s) (p_rv s))
      | None => Ok (cs, s)
      end
  | None => Ok (cs, s)
  end.
(* 1618-1627: a tail from below that is left *)
Definition pass_on (p : point) (cs : list cent) (s : pstate) : outcome pstate :=
  match vert_below cs with
  | Some (c, _) => try st <- push_point (snd (fst c)) p (p_st s); Ok (mk_ps st (p_elems s) (c_count c) (Some (snd (fst c))))
  | None => Ok s
  end.
(* The zeros of incoming, 1366-1368, do not occur: processEvent_ has dropped these entries.
   Entries that are handled are taken off the lists. *)
Definition process_point (p : point) (cs : list cent) (is : list ient) (elems : list felem) (st : fstate) : outcome pstate :=
  let s := mk_ps st elems 0 None in
  let (ps, cs) := match_pairs c_count (-1) 1 None cs in
  try s <- case1 p ps s;
  let (qs, is) := match_pairs i_count 1 (-1) None is in
  try s <- case2 p qs s;
  try ' (cs, is, s) <- case3 p cs is s;
  try ' (cs, is, s) <- case4 p cs is s;
  try ' (cs, s) <- case5 p cs s;
  try ' (cs, s) <- case6 p cs is s;
  pass_on p cs s.

(* ---------- processEvent_, 1647-1784 ---------- *)
(* less_vertex_half_edge, 772-837, is less_half_edge *)
Fixpoint f_lb (x : Z) (key : seg) (d : list felem) : outcome nat :=
  match d with
  | [] => Ok O
  | e :: d' =>
      try b <- he_less x true (fst e) key;
      if b : bool then try n <- f_lb x key d'; Ok (S n) else Ok O
  end.
Fixpoint f_insert (x : Z) (e : felem) (d : list felem) : outcome (list felem) :=
  match d with
  | [] => Ok [e]
  | f :: d' =>
      try b <- he_less x false (fst f) (fst e);
      if b : bool then try r <- f_insert x e d'; Ok (f :: r)
      else
        try b' <- he_less x false (fst e) (fst f);
        Ok (if b' : bool then e :: f :: d' else f :: d')
  end.
Fixpoint f_inserts (x : Z) (es d : list felem) : outcome (list felem) :=
  match es with [] => Ok d | e :: es' => try d' <- f_insert x e d; f_inserts x es' d' end.
Fixpoint f_erase (key : seg) (d : list felem) : outcome (list felem) :=
  match d with
  | [] => Undefined
  | e :: d' => if seg_eqb key (fst e) then Ok d' else try r <- f_erase key d'; Ok (e :: r)
  end.
Fixpoint f_erases (keys : list seg) (d : list felem) : outcome (list felem) :=
  match keys with [] => Ok d | k :: keys' => try d1 <- f_erase k d; f_erases keys' d1 end.
(* 1676-1690: the elements that come to p *)
Fixpoint coming (p : point) (d : list felem) : list felem :=
  match d with
  | [] => []
  | e :: d' => if pt_eqb (s_low (fst e)) p || pt_eqb (s_high (fst e)) p then e :: coming p d' else []
  end.
(* polygon_sort *)
Fixpoint o_insert {A : Type} (less : A -> A -> outcome bool) (a : A) (l : list A) : outcome (list A) :=
  match l with
  | [] => Ok [a]
  | b :: l' => try c <- less b a; if c : bool then try r <- o_insert less a l'; Ok (b :: r) else Ok (a :: l)
  end.
Fixpoint o_sort {A : Type} (less : A -> A -> outcome bool) (l : list A) : outcome (list A) :=
  match l with [] => Ok [] | a :: l' => try r <- o_sort less l'; o_insert less a r end.
(* less_incoming_count, 1229-1245: differences in int *)
Definition inc_less (a b : felem) : outcome bool :=
  let d (f : point -> Z) (e : felem) := f (s_low (fst e)) - f (s_high (fst e)) in
  try dx1 <- int_diff (d px a);
  try dx2 <- int_diff (d px b);
  try dy1 <- int_diff (d py a);
  try dy2 <- int_diff (d py b);
  Ok (eu_less_slope4 dx1 dy1 dx2 dy2).
(* less_half_edge_count, 1207-1219 *)
Definition cnt_less (p : point) (a b : point * Z) : outcome bool := Ok (eu_less_slope p (fst a) (fst b)).
(* marks the last entry if it is vertical *)
Fixpoint mark_last {A B : Type} (vert : A -> bool) (f : bool -> A -> B) (l : list A) : list (B * bool) :=
  match l with
  | [] => []
  | [a] => [(f (vert a) a, vert a)]
  | a :: l' => (f false a, false) :: mark_last vert f l'
  end.
Definition counts_of (l : list felem) : list cent := mark_last (fun e => sb_vertical (fst e)) (fun _ e => snd e) l.
(* 1725-1728: the sign of a vertical edge is inverted *)
Definition incoming_of (x : Z) (l : list (point * Z)) : list ient :=
  mark_last (fun e => px (fst e) =? x) (fun v e => (fst e, if v : bool then - snd e else snd e)) l.
(* the tail from below: verticalCount, verticalTail *)
Definition vtail : Type := option (point * Z * nat).
Definition vt_elem (p : point) (v : vtail) : list felem :=
  match v with None => [] | Some (q, c, t) => [(mk_seg q p, (- c, t))] end.
(* 1738-1770: a hole goes to the figure of the next element above, here or at the next vertex *)
Definition handle_hole (x : Z) (p : point) (next : option Z) (above : option felem) (s : pstate) : outcome (fstate * vtail) :=
  match p_rv s with
  | None => Ok (p_st s, None)
  | Some t =>
      if p_rc s =? 0 then
        try here <- match next with
                    | None => Ok true
                    | Some y => match above with None => Undefined | Some e => Ok (negb (sb_oab (mk_pt x y) (fst e) =? -1)) end
                    end;
        if here : bool then
          match above with None => Undefined | Some e => try st <- add_hole (snd (snd e)) t (p_st s); Ok (st, None) end
        else Ok (p_st s, Some (p, p_rc s, t))
      else Ok (p_st s, Some (p, p_rc s, t))
  end.
(* The loop over the vertices of a column, 1660-1771. Sorting is done after the edges to the
   right are selected, 1707-1717: the others do not change their order. *)
Fixpoint column (x : Z) (d : list felem) (ys : list (Z * list (point * Z))) (v : vtail) (elems : list felem) (gone : list seg) (st : fstate)
  : outcome (list felem * list seg * fstate) :=
  match ys with
  | [] => Ok (elems, gone, st)
  | (y, evs) :: ys' =>
      let p := mk_pt x y in
      try y1 <- chk (y + 1);
      try i <- f_lb x (mk_seg p (mk_pt x y1)) d;
      let here := coming p (skipn i d) in
      try cs <- o_sort inc_less here;
      try is <- o_sort (cnt_less p) (filter (fun e => pt_less p (fst e)) evs);
      try s <- process_point p (counts_of (cs ++ vt_elem p v)) (incoming_of x is) elems st;
      try ' (st', v') <- handle_hole x p (match ys' with [] => None | (y', _) :: _ => Some y' end) (nth_error d (i + length here)) s;
      column x d ys' v' (p_elems s) (gone ++ map fst here) st'
  end.
Definition process_event (x : Z) (ys : list (Z * list (point * Z))) (d : list felem) (st : fstate) : outcome (list felem * fstate) :=
  try ' (elems, gone, st) <- column x d ys None [] [] st;
  try d <- f_erases gone d;
  try d <- f_inserts x elems d;
  Ok (d, st).

(* ---------- scan, 1332-1346, and get_fracture of polygon_set_data.hpp:790-802 ---------- *)
Fixpoint scan_columns (cols : list (Z * list (Z * list (point * Z)))) (d : list felem) (st : fstate) : outcome fstate :=
  match cols with
  | [] => Ok st
  | (x, ys) :: cols' => try ' (d, st) <- process_event x ys d st; scan_columns cols' d st
  end.
(* vertex_half_edge: pt, other_pt, count *)
Definition vhedge : Type := (point * (point * Z))%type.
Definition half_edges (r : list pedge) : list vhedge :=
  flat_map (fun e => [(s_low (fst e), (s_high (fst e), snd e)); (s_high (fst e), (s_low (fst e), -1 * snd e))]) r.
(* operator<, 747-757, without the order of the edges at a vertex: they are sorted again *)
Definition vh_less (a b : vhedge) : outcome bool := Ok (pt_less (fst a) (fst b)).
(* neighbours with the same first component: the loops over a column and over a vertex *)
Fixpoint group {V : Type} (l : list (Z * V)) : list (Z * list V) :=
  match l with
  | [] => []
  | (k, v) :: l' =>
      match group l' with
      | (k', vs) :: g => if k =? k' then (k, v :: vs) :: g else (k, [v]) :: (k', vs) :: g
      | [] => [(k, [v])]
      end
  end.
Definition columns_of (evs : list vhedge) : list (Z * list (Z * list (point * Z))) :=
  map (fun c => (fst c, group (snd c))) (group (map (fun e => (px (fst e), (py (fst e), snd e))) evs)).
Definition form_polygons (r : list pedge) : outcome (list gpoly) :=
  try evs <- o_sort vh_less (half_edges r);
  try st <- scan_columns (columns_of evs) [] (mk_f [] O []);
  Ok (f_out st).
(* get for polygons with holes, 235-237 and 786-789, of a set that is dirty *)
Definition get_polygons (a : list pedge) : outcome (list gpoly) :=
  try r <- set_clean a; form_polygons r.
