(* Model of detail/polygon_formation.hpp: the scan line that puts the polygons
   of a Manhattan region together, and of get/get_polygons of polygon_90_set_data
   (without a vertex threshold). None stands for undefined behaviour: the use of
   a null or dangling pointer or of the end iterator. *)
From Verif Require Import Base Units Scan90Spec Poly90Spec Set90Model.

(* ActiveTail, 317-567, with the PolyLine chain it ends. PolyLines are linked at
   their heads and tails; the chain from an active tail to the other active tail
   of the figure is written as the list [t_line] of its coordinates, the last
   one pushed at this tail first, so that the lists of the two tails of a figure
   are each other's mirror image. The links (joinTo, 986-999), the solid side
   and polyLineSize_, which is only used with a vertex threshold, are left out.
   [t_vert]: getOrient(), the last coordinate is an x (a vertical edge). *)
Record tail : Type := mk_tail { t_line : list Z; t_vert : bool; t_other : nat; t_holes : list nat }.
(* the active tails that have not been destroyed *)
Definition heap : Type := nat -> option tail.
Definition hset (h : heap) (i : nat) (t : tail) : heap := fun j => if (j =? i)%nat then Some t else h j.
Definition hdel (h : heap) (i : nat) : heap := fun j => if (j =? i)%nat then None else h j.

(* PolyLine::popCoordinate, 961-964, as seen from the other end *)
Definition drop_last (l : list Z) : list Z := removelast l.
(* ActiveTail::pushCoordinate, 1205-1217, with PolyLine::pushPoint, 967-977: a
   coordinate that equals the last but one is not pushed; the last one is
   removed instead. getPoint, 1053-1067, follows the head link to find the last
   but one. *)
Definition push_coord (h : heap) (i : nat) (c : Z) : option heap :=
  do t <- h i;
  do o <- h (t_other t);
  match t_line t with
  | _ :: p :: l =>
      let (l1, l2) := if c =? p then (p :: l, drop_last (t_line o))
                      else (c :: t_line t, t_line o ++ [c]) in
      let h1 := hset h (t_other t) (mk_tail l2 (t_vert o) (t_other o) (t_holes o)) in
      Some (hset h1 i (mk_tail l1 (negb (t_vert t)) (t_other t) (t_holes t)))
  | _ => None
  end.

(* getCoord, 1191-1193 *)
Definition last_coord (h : heap) (i : nat) : option Z :=
  do t <- h i; match t_line t with c :: _ => Some c | [] => None end.

Definition with_holes (t : tail) (hs : list nat) : tail := mk_tail (t_line t) (t_vert t) (t_other t) hs.
(* copyHoles, 1170-1172: list::splice *)
Definition copy_holes (h : heap) (i j : nat) : option heap :=
  do ti <- h i;
  do tj <- h j;
  let h1 := hset h j (with_holes tj []) in
  Some (hset h1 i (with_holes ti (t_holes ti ++ t_holes tj))).

(* joinChains, 1433-1471, with outBufferTmp: a hole that has been closed, the
   heap and the output *)
Definition join_chains (h : heap) (a b : nat) (solid : bool) (out : list nat)
  : option (option nat * heap * list nat) :=
  do ta <- h a;
  if (t_other ta =? b)%nat then
    if solid then Some (Some a, h, out)
    else do h1 <- copy_holes h a b; Some (None, h1, out ++ [a])
  else
    do tb <- h b;
    let a' := t_other ta in
    let b' := t_other tb in
    do ta' <- h a';
    do tb' <- h b';
    let h1 := hset h a' (mk_tail (t_line ta' ++ t_line tb) (t_vert ta') b' (t_holes ta')) in
    let h2 := hset h1 b' (mk_tail (t_line tb' ++ t_line ta) (t_vert tb') a' (t_holes tb')) in
    do h3 <- copy_holes h2 a' a;
    do h4 <- copy_holes h3 a' b;
    Some (None, hdel (hdel h4 a) b, out).

(* addHole, 1133-1162 *)
Definition add_hole (h : heap) (i hole : nat) (fracture : bool) : option (nat * heap) :=
  do th <- h hole;
  let other := t_other th in
  if fracture then
    do tother <- h other;
    let (hh, v) := if t_vert tother then (hole, other) else (other, hole) in
    do c <- last_coord h v;
    do h1 <- push_coord h hh c;
    do '(_, h2, _) <- join_chains h1 i hh false [];
    Some (v, h2)
  else
    do t <- h i;
    do h1 <- copy_holes (hset h i (with_holes t (t_holes t ++ [hole]))) i hole;
    do h2 <- copy_holes h1 i other;
    Some (i, h2).

(* createActiveTailsAsPair, 1501-1534; [n] is the address of the next new
   active tail *)
Definition create_pair (h : heap) (n : nat) (x y : Z) (phole : option nat) (fracture : bool)
  : option (nat * nat * heap * nat) :=
  match phole, fracture with
  | Some p, true =>
      do tp <- h p;
      let at2 := if t_vert tp then p else t_other tp in
      do t2 <- h at2;
      let at1 := t_other t2 in
      do h1 <- push_coord h at1 x;
      do h2 <- push_coord h1 at2 y;
      Some (at1, at2, h2, n)
  | _, _ =>
      let at1 := n in
      let at2 := (n + 1)%nat in
      let h1 := hset (hset h at1 (mk_tail [x; y] true at2 [])) at2 (mk_tail [y; x] false at1 []) in
      match phole with
      | Some p => do '(_, h2) <- add_hole h1 at1 p false; Some (at1, at2, h2, (n + 2)%nat)
      | None => Some (at1, at2, h1, (n + 2)%nat)
      end
  end.

(* tailMap_, std::map<Unit, ActiveTail*>: the list of its elements in order. An
   iterator is the key of an element, or None for end(). *)
Definition tmap : Type := list (Z * nat).
Fixpoint m_find (k : Z) (m : tmap) : option nat :=
  match m with [] => None | (k', v) :: m' => if k' =? k then Some v else m_find k m' end.
Fixpoint m_insert (k : Z) (v : nat) (m : tmap) : tmap :=
  match m with
  | [] => [(k, v)]
  | (k', v') :: m' => if k <? k' then (k, v) :: m else if k' <? k then (k', v') :: m_insert k v m' else m
  end.
Definition m_erase (k : Z) (m : tmap) : tmap := filter (fun e => negb (fst e =? k)) m.
Definition m_assign (k : Z) (v : nat) (m : tmap) : tmap :=
  map (fun e => if fst e =? k then (k, v) else e) m.
Definition m_begin (m : tmap) : option Z := match m with [] => None | (k, _) :: _ => Some k end.
(* ++it *)
Definition m_next (k : Z) (m : tmap) : option Z := option_map fst (find (fun e => k <? fst e) m).
(* findAtNext, 1473-1486 *)
Definition find_at_next (m : tmap) (pos : option Z) (k : Z) : option nat :=
  match pos with
  | None => m_find k m
  | Some p => if p <? k then m_find k m else if p >? k then None else m_find k m
  end.

(* the local variables of processEdges, tailMap_ and outputPolygons_ *)
Record pform : Type := mk_pform {
  f_heap : heap; f_next : nat; f_map : tmap; f_it : option Z; f_cur : option nat; f_bottom : bool;
  f_out : list nat }.

(* one round of the loop of processEdges, 2016-2138. [low,high) is the edge,
   [next] the low end of the next edge of the other kind if there is one,
   [trailing] tells that it is a right edge and [nexty] is the low end of the
   next left edge, or UnitMax: only read for left edges. *)
Definition edge_bottom (fr : bool) (x low : Z) (s : pform) : option pform :=
  let '(mk_pform h n m it cur bap out) := s in
  if bap then Some s
  else
    match find_at_next m it low with
    | Some tl =>
        do '(cur', h') <- match cur with
                          | Some c =>
                              do '(c', h1) <- add_hole h tl c fr;
                              if fr then Some (c', h1) else do h2 <- push_coord h1 c' x; Some (c', h2)
                          | None => do h1 <- push_coord h tl x; Some (tl, h1)
                          end;
        Some (mk_pform h' n (m_erase low m) (m_next low m) (Some cur') bap out)
    | None =>
        do '(at1, at2, h', n') <- create_pair h n x low cur fr;
        Some (mk_pform h' n' (m_insert low at2 m) it (Some at1) bap out)
    end.
(* the top of the edge meets the bottom of the next one, 2063-2101. The [return]
   of 2068 leaves the output iterators unset. *)
Definition edge_meet (fr trailing : bool) (x high : Z) (s : pform) : option pform :=
  let '(mk_pform h n m it cur bap out) := s in
  do c <- cur;
  do tl <- find_at_next m it high;
  if trailing then
    do '(_, h1, out1) <- join_chains h c tl false out;
    do '(at1, at2, h2, n2) <- create_pair h1 n x high None fr;
    Some (mk_pform h2 n2 (m_assign high at2 m) (m_next high m) (Some at1) true out1)
  else
    do h1 <- push_coord h c high;
    do h2 <- push_coord h1 tl x;
    Some (mk_pform h2 n (m_assign high c m) (m_next high m) (Some tl) true out).
(* the top of the edge, 2102-2138 *)
Definition edge_top (fr trailing have : bool) (x high lefty nexty : Z) (s : pform) : option pform :=
  let '(mk_pform h n m it cur bap out) := s in
  do c <- cur;
  match find_at_next m it high with
  | Some tl =>
      do '(cur1, h1, out1) <- join_chains h c tl (negb trailing) out;
      let it1 := m_next high m in
      match cur1 with
      | Some hole =>
          let ity := match it1 with Some k => k | None => INT_MAX end in
          if negb have || ((ity <? lefty) && (ity <? nexty)) then
            do k <- it1;
            do tl2 <- m_find k m;
            do '(v, h2) <- add_hole h1 tl2 hole fr;
            if fr then
              do h3 <- push_coord h2 v ity;
              Some (mk_pform h3 n (m_erase high (m_assign k v m)) it1 None false out1)
            else Some (mk_pform h2 n (m_erase high m) it1 None false out1)
          else Some (mk_pform h1 n (m_erase high m) it1 (Some hole) false out1)
      | None => Some (mk_pform h1 n (m_erase high m) it1 None false out1)
      end
  | None =>
      do h1 <- push_coord h c high;
      Some (mk_pform h1 n (m_insert high c m) it None false out)
  end.
Definition edge : Type := (Z * Z)%type.
Definition low_of (l : list edge) : Z := match l with [] => INT_MAX | e :: _ => fst e end.
Definition one_edge (fr : bool) (x : Z) (e : edge) (trailing : bool) (lefts rights : list edge) (s : pform)
  : option pform :=
  (* [lefts], [rights]: the edges that remain after this one *)
  let have := match (if trailing then lefts else rights) with [] => false | _ => true end in
  let next := low_of (if trailing then lefts else rights) in
  do s1 <- edge_bottom fr x (fst e) s;
  if have && (snd e =? next) then edge_meet fr trailing x (snd e) s1
  else edge_top fr trailing have x (snd e) (low_of lefts) next s1.
(* the loop, 2016-2139 *)
Fixpoint edges_loop (fuel : nat) (fr : bool) (x : Z) (lefts rights : list edge) (s : pform) : option pform :=
  match fuel with
  | O => None
  | S fuel' =>
      match lefts, rights with
      | [], [] => Some s
      | _, _ =>
          if low_of rights <? low_of lefts then
            match rights with
            | e :: rights' => do s1 <- one_edge fr x e true lefts rights' s; edges_loop fuel' fr x lefts rights' s1
            | [] => None
            end
          else
            match lefts with
            | e :: lefts' => do s1 <- one_edge fr x e false lefts' rights s; edges_loop fuel' fr x lefts' rights s1
            | [] => None
            end
      end
  end.

(* ActiveTail::iterator, 351-390 and 408-441: the coordinates of a closed
   figure. The iterator starts at this or at the other active tail, and skips
   the first coordinate if it has the wrong direction: it comes last. *)
Definition read_figure (h : heap) (o : orient) (is_hole : bool) (i : nat) : option (list Z) :=
  do t <- h i;
  let horizontal := match o with Horizontal => true | Vertical => false end in
  let start := if xorb (negb is_hole) horizontal then t_other t else i in
  do ts <- h start;
  if xorb (negb (t_vert ts)) horizontal then
    match t_line ts with c :: l => Some (l ++ [c]) | [] => None end
  else Some (t_line ts).
(* PolyLinePolygonWithHolesData, 590-628, as assign reads it. With a concept
   without holes [assign] reads the outer ring only. *)
Fixpoint map_option {A B : Type} (f : A -> option B) (l : list A) : option (list B) :=
  match l with [] => Some [] | a :: l' => do b <- f a; do bs <- map_option f l'; Some (b :: bs) end.
Definition read_polygon (h : heap) (o : orient) (holes : bool) (i : nat) : option poly90 :=
  do t <- h i;
  do outer <- read_figure h o false i;
  do inner <- (if holes then map_option (read_figure h o true) (t_holes t) else Some []);
  Some (mk_poly90 outer inner).

(* the members of ScanLineToPolygonItrs that live across calls *)
Record pscan : Type := mk_pscan { c_heap : heap; c_next : nat; c_map : tmap }.
(* processEdges, 1993-2143, and the polygons that get_polygons reads from its
   output before the next call. clearOutput_, 2145-2165, which frees the figures
   that have been read, is left out. *)
Definition process_edges (fr : bool) (o : orient) (x : Z) (lefts rights : list edge) (s : pscan)
  : option (pscan * list poly90) :=
  let '(mk_pscan h n m) := s in
  do s1 <- edges_loop (S (length lefts + length rights)) fr x lefts rights
             (mk_pform h n m (m_begin m) None false []);
  do ps <- map_option (read_polygon (f_heap s1) o (negb fr)) (f_out s1);
  Some (mk_pscan (f_heap s1) (f_next s1) (f_map s1), ps).

(* the vectors leftEdges and rightEdges are kept with the last edge first *)
Definition add_edge (e : edge) (l : list edge) : list edge :=
  match l with
  | (a, b) :: l' => if b =? fst e then (Z.min a (fst e), Z.max b (snd e)) :: l' else e :: l
  | [] => [e]
  end.
(* the loop of get_polygons, 2204-2266 *)
Fixpoint polys_loop (fr : bool) (o : orient) (s : pscan) (prevPos prevY count : Z) (lefts rights : list edge)
  (V : list vertex) (out : list poly90) : option (list poly90) :=
  match V with
  | [] =>
      do '(_, ps) <- process_edges fr o prevPos (rev lefts) (rev rights) s;
      Some (out ++ ps)
  | v :: V' =>
      if negb (vx v =? prevPos) then
        do '(s1, ps) <- process_edges fr o prevPos (rev lefts) (rev rights) s;
        polys_loop fr o s1 (vx v) (vy v) (vc v) [] [] V' (out ++ ps)
      else
        let '(lefts1, rights1) :=
          if negb (count =? 0) && negb (vy v =? prevY) then
            if count =? 1 then (add_edge (prevY, vy v) lefts, rights)
            else (lefts, add_edge (prevY, vy v) rights)
          else (lefts, rights) in
        polys_loop fr o s prevPos (vy v) (count + vc v) lefts1 rights1 V' out
  end.
(* get_polygons, 2190-2283 *)
Definition get_polygons (fr : bool) (o : orient) (V : list vertex) : option (list poly90) :=
  polys_loop fr o (mk_pscan (fun _ => None) O []) INT_MAX INT_MAX 0 [] [] V [].

(* get_polygons and get_polygons_with_holes of polygon_90_set_data, 830-885: the
   concept of the output decides whether holes are fractured *)
Definition ps_get_polygons (fr : bool) (s : pset) : option (list poly90 * pset) :=
  do s1 <- ps_clean s;
  do ps <- get_polygons fr (ps_orient s1) (ps_data s1);
  Some (ps, s1).
