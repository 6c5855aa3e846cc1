(* Model of property_merge_90 (polygon_90_set_data.hpp:918-947) and of the part
   of merge_scanline (detail/property_merge.hpp) it uses.

   Properties are integers; counts and coordinates are unbounded integers (the
   code only copies and compares coordinates, and adds counts). Iterators into
   the scan line are keys as in BoolOpModel; an invalid use gives None. *)
From Coq Require Import Permutation.
From Verif Require Import Base Scan90Spec BoolOpModel Set90Spec Set90Model PropMergeSpec.

(* property_map, line 61: a vector of (property, count) sorted by property *)
Notation pmap := (list (Z * Z)) (only parsing).
(* vertex_property, line 62 *)
Record pvertex : Type := mk_pv { pv_x : Z; pv_y : Z; pv_p : Z; pv_c : Z }.
(* edge_property, line 68: the interval, the property sets on its left and right *)
Record pedge : Type := mk_pe { pe_lo : Z; pe_hi : Z; pe_left : list Z; pe_right : list Z }.

(* populate_property_merge_data, lines 73-87 *)
Definition populate_pmd (pmd : list pvertex) (V : list vertex) (p : Z) (o : orient) : list pvertex :=
  pmd ++ map (fun v => match o with
                       | Horizontal => mk_pv (vy v) (vx v) p (vc v)
                       | Vertical => mk_pv (vx v) (vy v) p (vc v)
                       end) V.

(* mergeProperty, lines 177-189: std::lower_bound on a sorted vector is the
   first element not less *)
Fixpoint mergeProperty (l : pmap) (p c : Z) : pmap :=
  match l with
  | [] => [(p, c)]
  | (q, d) :: l' =>
      if q <? p then (q, d) :: mergeProperty l' p c
      else if q =? p then (if d + c =? 0 then l' else (q, d + c) :: l')
      else (p, c) :: l
  end.

(* setProperty, lines 214-221, into an empty set: insert(end(), p) appends, the
   properties being in increasing order *)
Fixpoint setProperty (m : pmap) : list Z :=
  match m with
  | [] => []
  | (p, c) :: m' => if c >? 0 then p :: setProperty m' else setProperty m'
  end.

(* mergeCount, lines 235-284. tmpVector is kept in reverse order. *)
Definition mc_push (tmp : pmap) (e : Z * Z) : pmap :=
  match tmp with
  | [] => [e]
  | (q, d) :: t => if fst e =? q then (q, d + snd e) :: t else e :: tmp
  end.
Fixpoint mc_merge (l : pmap) : pmap -> pmap -> pmap :=
  fix inner (r : pmap) (tmp : pmap) : pmap :=
    match l with
    | [] => fold_left mc_push r tmp
    | a :: l' =>
        match r with
        | [] => fold_left mc_push l tmp
        | b :: r' =>
            if fst a <=? fst b then mc_merge l' r (mc_push tmp a)
            else inner r' (mc_push tmp b)
        end
    end.
Definition mergeCount (l r : pmap) : pmap :=
  filter (fun e => negb (snd e =? 0)) (rev (mc_merge l r [])).

Fixpoint pmap_eqb (a b : pmap) : bool :=
  match a, b with
  | [], [] => true
  | (p, c) :: a', (q, d) :: b' => (p =? q) && (c =? d) && pmap_eqb a' b'
  | _, _ => false
  end.

(* data members, lines 225-231; the output vector in reverse order *)
Record ms_state : Type := mk_ms {
  ms_out : list pedge; ms_scan : smap pmap; ms_prevY : Z; ms_below : pmap; ms_pos : iter }.

(* lines 310-330: push the edge, drop it if nothing changes across it, glue it
   to the edge before if that ends where it starts and has the same sides *)
Definition push_edge (e : pedge) (out : list pedge) : list pedge :=
  if set_eqb (pe_left e) (pe_right e) then out
  else match out with
       | e' :: out' =>
           if (pe_hi e' =? pe_lo e) && set_eqb (pe_left e') (pe_left e) && set_eqb (pe_right e') (pe_right e)
           then mk_pe (pe_lo e') (pe_hi e) (pe_left e') (pe_right e') :: out'
           else e :: out
       | [] => [e]
       end.

(* lines 331-341 and 385-402: erase the element if it is the first and empty or
   has the value of the element below it *)
Definition erase_redundant (k : Z) (m : smap pmap) : option (smap pmap) :=
  do e <- m_deref (Some k) m;
  if iter_eqb (Some k) (m_begin m) then
    Some (match snd e with [] => m_erase k m | _ => m end)
  else
    do t <- m_decr (Some k) m;
    do b <- m_deref t m;
    Some (if pmap_eqb (snd b) (snd e) then m_erase k m else m).

(* the while loop, lines 304-365. Each pass either moves to the next element or
   inserts the element for the upper end (after which the next pass moves), so
   the number of passes is at most twice the number of elements plus 2. *)
Fixpoint pv_loop (fuel : nat) (high : Z) (below : pmap) (m : smap pmap) (out : list pedge)
    (prev : Z) (pos : iter) (currentY : Z) : option (smap pmap * list pedge * Z * iter * Z) :=
  match fuel with
  | O => None
  | S fuel =>
    match pos with
    | None => Some (m, out, prev, pos, currentY)
    | Some _ =>
      do el <- m_deref pos m;
      let elementY := fst el in
      if elementY <=? high then
        do pe <- m_deref (Some prev) m;
        let left := snd pe in
        let right := mergeCount left below in
        let m1 := m_set prev right m in
        let out1 := push_edge (mk_pe prev elementY (setProperty left) (setProperty right)) out in
        do m2 <- erase_redundant prev m1;
        do pos2 <- m_incr (Some elementY) m2;
        match pos2 with
        | None =>
            if elementY <? high
            then pv_loop fuel high below (m_insert high [] m2) out1 elementY (Some high) elementY
            else pv_loop fuel high below m2 out1 elementY None elementY
        | Some _ => pv_loop fuel high below m2 out1 elementY pos2 elementY
        end
      else if currentY <? high then
        do pe <- m_deref (Some prev) m;
        pv_loop fuel high below (m_insert high (snd pe) m) out prev (Some high) currentY
      else Some (m, out, prev, pos, currentY)
    end
  end.

(* processVertex, lines 286-425, with the current vertex at height y *)
Definition processVertex (y : Z) (cur : pmap) (s : ms_state) : option ms_state :=
  match ms_below s with
  | _ :: _ =>
      do pos0 <- (match ms_pos s with
                  | None => Some (m_lower_bound (ms_prevY s) (ms_scan s))
                  | Some _ => do e <- m_deref (ms_pos s) (ms_scan s);
                              Some (if fst e =? ms_prevY s then ms_pos s else m_lower_bound (ms_prevY s) (ms_scan s))
                  end);
      do pe <- m_deref pos0 (ms_scan s);
      do pos1 <- m_incr pos0 (ms_scan s);
      do r <- pv_loop (2 * length (ms_scan s) + 2) y (ms_below s) (ms_scan s) (ms_out s) (fst pe) pos1 (ms_prevY s);
      let '(m, out, prev, pos, currentY) := r in
      match pos with
      | None =>
          if currentY <? y then
            (* scanline[currentY] creates the element if it is missing *)
            let m1 := m_insert currentY [] m in
            do v <- m_find currentY m1;
            let m2 := m_insert y [] (m_set currentY (mergeCount v (ms_below s)) m1) in
            Some (mk_ms (mk_pe currentY y [] (setProperty (ms_below s)) :: out) m2 y
                    (mergeCount (ms_below s) cur) pos)
          else
            let below' := mergeCount (ms_below s) cur in
            match below' with
            | [] => do m1 <- erase_redundant prev m; Some (mk_ms out m1 y below' pos)
            | _ => Some (mk_ms out m y below' pos)
            end
      | Some _ =>
          let below' := mergeCount (ms_below s) cur in
          match below' with
          | [] => do m1 <- erase_redundant prev m; Some (mk_ms out m1 y below' pos)
          | _ => Some (mk_ms out m y below' pos)
          end
      end
  | [] =>
      (* lines 404-423 *)
      let pos := m_lower_bound y (ms_scan s) in
      match pos with
      | None => Some (mk_ms (ms_out s) (m_insert y [] (ms_scan s)) y cur (Some y))
      | Some k =>
          if negb (k =? y) then
            if negb (iter_eqb pos (m_begin (ms_scan s))) then
              do t <- m_decr pos (ms_scan s);
              do b <- m_deref t (ms_scan s);
              Some (mk_ms (ms_out s) (m_insert y (snd b) (ms_scan s)) y cur (Some y))
            else Some (mk_ms (ms_out s) (m_insert y [] (ms_scan s)) y cur (Some y))
          else Some (mk_ms (ms_out s) (ms_scan s) y cur pos)
      end
  end.

(* insert(major, (interval, count)), polygon_90_set_data.hpp:150-159 *)
Definition ps_insert_edge (s : pset) (x lo hi c : Z) : pset :=
  ps_insert_vertex (ps_insert_vertex s (x, (lo, c)) false (ps_orient s)) (x, (hi, c * -1)) false (ps_orient s).

(* find, insert a new polygon_set_type(VERTICAL) if there is none, insert the
   edge: lines 560-568, 571-578. The order of the keys of the std::map is not
   observable by the code. *)
Fixpoint res_edge (S : list Z) (x lo hi c : Z) (r : pm_result) : pm_result :=
  match r with
  | [] => [(S, ps_insert_edge (ps_new Vertical) x lo hi c)]
  | (S', s) :: r' =>
      if set_eqb S' S then (S', ps_insert_edge s x lo hi c) :: r'
      else (S', s) :: res_edge S x lo hi c r'
  end.
(* one pass of the loop of writeOutput, lines 558-580 *)
Definition write_edge (x : Z) (r : pm_result) (e : pedge) : pm_result :=
  let r1 := match pe_left e with [] => r | _ => res_edge (pe_left e) x (pe_lo e) (pe_hi e) (-1) r end in
  match pe_right e with [] => r1 | _ => res_edge (pe_right e) x (pe_lo e) (pe_hi e) 1 r1 end.
(* writeOutput, lines 557-582 *)
Definition writeOutput (x : Z) (r : pm_result) (out : list pedge) : pm_result :=
  fold_left (write_edge x) (rev out) r.

(* the loop of perform_merge after the first datum, lines 128-147 *)
Fixpoint merge_loop (cx cy : Z) (cur : pmap) (s : ms_state) (r : pm_result) (data : list pvertex)
    : option pm_result :=
  match data with
  | [] =>
      do s' <- processVertex cy cur s;
      Some (writeOutput cx r (ms_out s'))
  | v :: data' =>
      if negb ((pv_x v =? cx) && (pv_y v =? cy)) then
        if negb (pv_x v =? cx) then
          do s' <- processVertex cy cur s;
          merge_loop (pv_x v) (pv_y v) (mergeProperty [] (pv_p v) (pv_c v))
            (mk_ms [] (ms_scan s') (ms_prevY s') [] (ms_pos s')) (writeOutput cx r (ms_out s')) data'
        else
          do s' <- processVertex cy cur s;
          merge_loop (pv_x v) (pv_y v) (mergeProperty [] (pv_p v) (pv_c v)) s' r data'
      else merge_loop cx cy (mergeProperty cur (pv_p v) (pv_c v)) s r data'
  end.

(* perform_merge, lines 115-150, after the sort *)
Definition merge_sorted (r : pm_result) (data : list pvertex) : option pm_result :=
  match data with
  | [] => Some r
  | v :: data' =>
      merge_loop (pv_x v) (pv_y v) (mergeProperty [] (pv_p v) (pv_c v)) (mk_ms [] [] 0 [] None) r data'
  end.

(* less_vertex_data, lines 156-166: only positions are compared, and std::sort
   may leave data at the same position in any order *)
Definition pv_le (v w : pvertex) : Prop := pv_x v < pv_x w \/ (pv_x v = pv_x w /\ pv_y v <= pv_y w).
Definition pv_sorted (data : list pvertex) : Prop := StronglySorted pv_le data.

(* property_merge_90: insert, lines 925-935 and merge, 940-944. [merges ins r r']:
   inserting the inputs in turn into a new object and calling merge(r) may leave
   the result r'. *)
Fixpoint pm_data (pmd : list pvertex) (ins : list (pset * Z)) : list pvertex :=
  match ins with
  | [] => pmd
  | (s, p) :: ins' => pm_data (populate_pmd pmd (ps_data s) p (ps_orient s)) ins'
  end.
Definition merges (ins : list (pset * Z)) (r r' : pm_result) : Prop :=
  exists data, Permutation data (pm_data [] ins) /\ pv_sorted data /\ merge_sorted r data = Some r'.

(* an executable instance of the sort, to run the model *)
Definition pv_leb (v w : pvertex) : bool := (pv_x v <? pv_x w) || ((pv_x v =? pv_x w) && (pv_y v <=? pv_y w)).
Fixpoint pv_insert (v : pvertex) (l : list pvertex) : list pvertex :=
  match l with [] => [v] | w :: l' => if pv_leb v w then v :: l else w :: pv_insert v l' end.
Fixpoint pv_sort (l : list pvertex) : list pvertex :=
  match l with [] => [] | v :: l' => pv_insert v (pv_sort l') end.
Definition property_merge (ins : list (pset * Z)) (r : pm_result) : option pm_result :=
  merge_sorted r (pv_sort (pm_data [] ins)).
