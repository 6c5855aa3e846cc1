(* Model of detail/polygon_90_touch.hpp (touch_90_operation) and of class
   connectivity_extraction_90 (polygon_90_set_data.hpp:951-986).

   std::map is the sorted list of BoolOpModel, std::set<int> a strictly
   increasing list of integers, the output graph a std::vector<std::set<int> >
   (an index outside of it is undefined behaviour, None). *)
From Verif Require Import Base Scan90Spec BoolOpModel Set90Spec Set90Model TouchSpec.

Notation idset := (list Z) (only parsing).
Definition set_mem (i : Z) (s : idset) : bool := existsb (Z.eqb i) s.
Fixpoint set_insert (i : Z) (s : idset) : idset :=
  match s with
  | [] => [i]
  | j :: s' => if i <? j then i :: s else if i =? j then s else j :: set_insert i s'
  end.
Definition set_erase (i : Z) (s : idset) : idset := filter (fun j => negb (j =? i)) s.
Fixpoint set_eqb (s t : idset) : bool :=
  match s, t with
  | [], [] => true
  | i :: s', j :: t' => (i =? j) && set_eqb s' t'
  | _, _ => false
  end.
(* erase if present, else insert: lines 58-63, 113-118 *)
Definition set_toggle (i : Z) (s : idset) : idset :=
  if set_mem i s then set_erase i s else set_insert i s.

(* ---------- class TouchScanEvent ---------- *)
Definition event : Type := smap idset.

(* insert(pos, id), lines 109-123 *)
Fixpoint ev_insert_pos (pos id : Z) (m : event) : event :=
  match m with
  | [] => [(pos, [id])]
  | (k, s) :: m' =>
      if k <? pos then (k, s) :: ev_insert_pos pos id m'
      else if k =? pos then (k, set_toggle id s) :: m'
      else (pos, [id]) :: (k, s) :: m'
  end.
(* insert(pair<Interval,int>), lines 103-106 *)
Definition ev_insert (low high id : Z) (m : event) : event :=
  ev_insert_pos high id (ev_insert_pos low id m).

(* class iterator, lines 26-87: itr_ is the rest of the map from the element it
   points to *)
Record ev_iter : Type := mk_ei {
  ei_rest : event; ei_low : Z; ei_high : Z; ei_ids : idset; ei_inc : bool }.

(* operator++, lines 48-74 *)
Definition ei_incr (e : ev_iter) : option ev_iter :=
  match ei_rest e with
  | [] => None
  | (_, s) :: r =>
      Some (mk_ei r (ei_low e) (ei_high e) (fold_left (fun ids i => set_toggle i ids) s (ei_ids e)) true)
  end.
(* lines 81-82 and 84-85 *)
Definition ei_settle (e : ev_iter) : option ev_iter :=
  if ei_inc e then
    match ei_rest e with
    | [] => None
    | (k, _) :: _ => Some (mk_ei (ei_rest e) (ei_high e) k (ei_ids e) false)
    end
  else Some e.
(* operator*, lines 80-86 *)
Definition ei_deref (e : ev_iter) : option ev_iter :=
  do e1 <- ei_settle e;
  do e2 <- (match ei_ids e1 with [] => ei_incr e1 | _ => Some e1 end);
  ei_settle e2.
(* begin, lines 134-142; the end iterator has an empty rest *)
Definition ev_begin (m : event) : option ev_iter :=
  match m with
  | [] => Some (mk_ei [] 0 0 [] false)
  | (pos, s) :: r => match r with [] => None | (k, _) :: _ => Some (mk_ei r pos k s false) end
  end.

(* ---------- the output graph ---------- *)
Fixpoint g_update (n : nat) (b : Z) (g : graph) : option graph :=
  match g, n with
  | [], _ => None
  | s :: g', O => Some (set_insert b s :: g')
  | s :: g', S n' => do g1 <- g_update n' b g'; Some (s :: g1)
  end.
(* outputContainer[a].insert(b) *)
Definition g_insert (a b : Z) (g : graph) : option graph :=
  if a <? 0 then None else g_update (Z.to_nat a) b g.

(* evaluateBorderId_, lines 312-320, and the loop of evaluateId_, 332-338 *)
Fixpoint evaluateBorderId (ids : idset) (changingId : Z) (g : graph) : option graph :=
  match ids with
  | [] => Some g
  | j :: ids' =>
      do g1 <- (if negb (changingId =? j)
                then do g0 <- g_insert changingId j g; g_insert j changingId g0
                else Some g);
      evaluateBorderId ids' changingId g1
  end.
(* evaluateBorder_, lines 305-310 *)
Fixpoint evaluateBorder (ids changingIds : idset) (g : graph) : option graph :=
  match changingIds with
  | [] => Some g
  | c :: cs => do g1 <- evaluateBorderId ids c g; evaluateBorder ids cs g1
  end.
(* evaluateId_, lines 322-347 *)
Definition evaluateId (ids : idset) (changingId : Z) (leadingEdge : bool) (g : graph)
  : option (idset * graph) :=
  if negb (set_mem changingId ids) then
    if leadingEdge then
      do g1 <- evaluateBorderId ids changingId g; Some (set_insert changingId ids, g1)
    else Some (ids, g)
  else if negb leadingEdge then Some (set_erase changingId ids, g)
  else Some (ids, g).
(* evaluateInterval_, lines 297-303 *)
Fixpoint evaluateIds (ids changingIds : idset) (leadingEdge : bool) (g : graph)
  : option (idset * graph) :=
  match changingIds with
  | [] => Some (ids, g)
  | c :: cs => do '(ids1, g1) <- evaluateId ids c leadingEdge g; evaluateIds ids1 cs leadingEdge g1
  end.

(* ---------- class TouchOp ----------
   lookup_ (284-289), insert_ (291-294), lines 195-206 (ensure_high), 213-225
   (split_low), 247-255 (merge_low) and 257-267 (merge_high) are the same code as
   in BooleanOp, with the empty set and set equality. *)
Definition id_ops : count_ops idset :=
  {| t_null := []; t_add := fun a _ => a; t_eqb := set_eqb; t_int := fun _ => 0 |}.

(* lines 238-244 *)
Fixpoint touch_loop (fuel : nat) (itr highItr : iter) (ids : idset) (leadingEdge : bool)
  (m : smap idset) (g : graph) : option (smap idset * graph) :=
  match fuel with
  | O => None
  | S fuel' =>
      if iter_eqb itr highItr then Some (m, g)
      else
        do '(k, beforeIds) <- m_deref itr m;
        do itr' <- m_incr itr m;
        do '(afterIds, g1) <- evaluateIds beforeIds ids leadingEdge g;
        touch_loop fuel' itr' highItr ids leadingEdge (m_set k afterIds m) g1
  end.

(* lines 207-211: *highItr is the end of the interval: border with the interval above *)
Definition border_high (high : Z) (highItr : iter) (ids : idset) (leadingEdge : bool)
  (m : smap idset) (g : graph) : option graph :=
  match highItr with
  | None => Some g
  | Some _ =>
      do '(k, v) <- m_deref highItr m;
      if k >? high then Some g
      else if leadingEdge then evaluateBorder v ids g else Some g
  end.
(* lines 226-234 *)
Definition border_low (low : Z) (lowItr : iter) (ids : idset) (leadingEdge : bool)
  (m : smap idset) (g : graph) : option graph :=
  do '(k, _) <- m_deref lowItr m;
  if k >? low then Some g
  else if leadingEdge && negb (iter_eqb lowItr (m_begin m)) then
    do below <- m_decr lowItr m;
    do '(_, v) <- m_deref below m;
    evaluateBorder v ids g
  else Some g.

(* processInterval, lines 178-270 *)
Definition touch_interval (s : bo_state idset) (low high : Z) (ids : idset) (leadingEdge : bool)
  (g : graph) : option (bo_state idset * graph) :=
  do '(lowItr, s1) <- lookup_ low s;
  do '(highItr, s2) <- lookup_ high s1;
  match lowItr with
  | None =>
      do '(_, s3) <- insert_ low ids s2;
      do g1 <- evaluateBorder ids ids g;
      do '(_, s4) <- insert_ high [] s3;
      Some (s4, g1)
  | Some _ =>
      do g1 <- border_high high highItr ids leadingEdge (scanData s2) g;
      do '(highItr', s3) <- ensure_high id_ops high highItr s2;
      do g2 <- border_low low lowItr ids leadingEdge (scanData s3) g1;
      do '(lowItr', s4) <- split_low id_ops low lowItr s3;
      do '(m1, g3) <- touch_loop (S (length (scanData s4))) lowItr' highItr' ids leadingEdge (scanData s4) g2;
      do m2 <- merge_low id_ops lowItr' m1;
      do '(highItr'', m3) <- merge_high id_ops highItr' m2;
      Some (mk_bo m3 highItr'', g3)
  end.

(* processEvent, lines 351-356: both arguments dereference the iterator *)
Fixpoint event_loop (fuel : nat) (e : ev_iter) (leadingEdge : bool) (s : bo_state idset) (g : graph)
  : option (bo_state idset * graph) :=
  match fuel with
  | O => None
  | S fuel' =>
      match ei_rest e with
      | [] => Some (s, g)
      | _ =>
          do e1 <- ei_deref e;
          do e2 <- ei_deref e1;
          do '(s1, g1) <- touch_interval s (ei_low e1) (ei_high e1) (ei_ids e2) leadingEdge g;
          do e3 <- ei_incr e2;
          event_loop fuel' e3 leadingEdge s1 g1
      end
  end.
Definition processEvent (m : event) (leadingEdge : bool) (s : bo_state idset) (g : graph)
  : option (bo_state idset * graph) :=
  do e <- ev_begin m; event_loop (S (length m)) e leadingEdge s g.

(* performTouch, lines 359-382 *)
Fixpoint touch_events (fuel : nat) (L R : smap event) (s : bo_state idset) (g : graph) : option graph :=
  match L, R with
  | [], [] => Some g
  | _, _ =>
      match fuel with
      | O => None
      | S fuel' =>
          let s0 := advanceScan s in
          match L, R with
          | (xl, el) :: L', (xr, er) :: R' =>
              if xl <=? xr then
                do '(s1, g1) <- processEvent el true s0 g; touch_events fuel' L' R s1 g1
              else
                do '(s1, g1) <- processEvent er false s0 g; touch_events fuel' L R' s1 g1
          | [], (_, er) :: R' =>
              do '(s1, g1) <- processEvent er false s0 g; touch_events fuel' L R' s1 g1
          | _, [] => None  (* rightItr->second with rightItr at the end *)
          end
      end
  end.
Definition tsd : Type := (smap event * smap event)%type.
Definition performTouch (d : tsd) (g : graph) : option graph :=
  touch_events (length (fst d) + length (snd d)) (fst d) (snd d) bo_init g.

(* data[pos].insert(element): std::map::operator[] adds an empty event *)
Fixpoint at_insert (x low high id : Z) (m : smap event) : smap event :=
  match m with
  | [] => [(x, ev_insert low high id [])]
  | (k, e) :: m' =>
      if k <? x then (k, e) :: at_insert x low high id m'
      else if k =? x then (k, ev_insert low high id e) :: m'
      else (x, ev_insert low high id []) :: (k, e) :: m'
  end.

(* populateTouchSetData, lines 384-413; prevPos starts as the largest Unit *)
Record pop_state : Type := mk_pop { pp_pos : Z; pp_y : Z; pp_count : Z; pp_data : tsd }.
Definition pop_step (id : Z) (s : pop_state) (v : vertex) : pop_state :=
  let pos := vx v in
  if negb (pos =? pp_pos s) then mk_pop pos (vy v) (vc v) (pp_data s)
  else
    let y := vy v in
    let d :=
      if negb (pp_count s =? 0) && negb (y =? pp_y s) then
        if pp_count s >? 0
        then (at_insert pos (pp_y s) y id (fst (pp_data s)), snd (pp_data s))
        else (fst (pp_data s), at_insert pos (pp_y s) y id (snd (pp_data s)))
      else pp_data s in
    mk_pop (pp_pos s) y (pp_count s + vc v) d.
Definition populateTouchSetData (UnitMax : Z) (d : tsd) (V : list vertex) (id : Z) : tsd :=
  pp_data (fold_left (pop_step id) V (mk_pop UnitMax UnitMax 0 d)).

(* ---------- class connectivity_extraction_90 ---------- *)
Record conn : Type := mk_conn { cn_data : tsd; cn_count : Z }.
Definition conn_new : conn := mk_conn ([], []) 0.
(* insert(polygon_90_set_data), lines 967-971; the orientation of the set is not
   looked at. Result: the node and the new object. *)
Definition conn_insert (c : conn) (s : pset) : option (Z * conn) :=
  do s1 <- ps_clean s;
  Some (cn_count c,
        mk_conn (populateTouchSetData INT_MAX (cn_data c) (ps_data s1) (cn_count c)) (cn_count c + 1)).
(* insert(geometry), lines 972-977, for a rectangle and a Manhattan polygon; the
   default orientation is HORIZONTAL *)
Definition conn_insert_rect (c : conn) (r : rect) : option (Z * conn) :=
  conn_insert c (ps_insert_rect (ps_new Horizontal) r false).
(* extract, lines 982-985 *)
Definition conn_extract (c : conn) (g : graph) : option graph := performTouch (cn_data c) g.

(* sets that arise in histories of accepted calls *)
Definition legal_set (s : pset) : Prop := exists st i, reachable st /\ s = st i.

(* a history of insertions *)
Fixpoint conn_inserts (c : conn) (l : list pset) : option (list Z * conn) :=
  match l with
  | [] => Some ([], c)
  | s :: l' =>
      do '(id, c1) <- conn_insert c s;
      do '(ids, c2) <- conn_inserts c1 l';
      Some (id :: ids, c2)
  end.

(* ---------- polygon_90_set_data::interact, polygon_90_set_data.hpp:789-810 ----------
   The polygons of get(polys) are an argument here; TouchGet composes this with
   polygon formation. The loop of lines 797-802 cleans each polygon in a set of its own
   and adds it under the id i+1: the same as conn_insert. *)
Fixpoint interact_data (o : orient) (polys : list poly90) (c : conn) : outcome conn :=
  match polys with
  | [] => Ok c
  | p :: ps =>
      try psTmp <- ps_insert_poly (ps_new o) p false;
      match conn_insert c psTmp with
      | None => Undefined
      | Some (_, c1) => interact_data o ps c1
      end
  end.
(* lines 805-807 *)
Fixpoint insert_selected (s : pset) (polys : list poly90) (ids : idset) : outcome pset :=
  match ids with
  | [] => Ok s
  | i :: ids' =>
      if i <? 1 then Undefined
      else match nth_error polys (Z.to_nat (i - 1)) with
           | None => Undefined
           | Some p => try s1 <- ps_insert_poly s p false; insert_selected s1 polys ids'
           end
  end.
(* line 791: only dirty data is cleaned, unsorted data is used as it is *)
Definition interact_ids (that : pset) (polys : list poly90) : outcome idset :=
  match (if ps_dirty that then ps_clean that else Some that) with
  | None => Undefined
  | Some that1 =>
      try c <- interact_data (ps_orient that) polys
                 (mk_conn (populateTouchSetData INT_MAX ([], []) (ps_data that1) 0) 1);
      match performTouch (cn_data c) (repeat [] (S (length polys))) with
      | Some (ids :: _) => Ok ids
      | _ => Undefined
      end
  end.
Definition ps_interact (s that : pset) (polys : list poly90) : outcome pset :=
  try ids <- interact_ids that polys;
  try s1 <- insert_selected (ps_clear s) polys ids;
  Ok (mk_ps (ps_orient s1) (ps_data s1) false (ps_unsorted s1)).
