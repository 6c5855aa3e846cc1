(* Model of the Manhattan boolean scan line, detail/boolean_op.hpp.

   std::map<Unit,T> is a list of (key,value) with strictly increasing keys. An
   iterator is the key of the element it points to, or None for end();
   dereferencing or moving an iterator whose key is not in the map is undefined
   behaviour (outcome None of the option monad). The counts are unbounded
   integers (the C++ uses int; the number of coincident edges would have to
   reach 2^31 for a difference). *)
From Verif Require Import Base Scan90Spec.

(* The operations on the count type T that BooleanOp uses: nullT_ (27-30),
   operator+=, operator== and the conversion to int. *)
Record count_ops (T : Type) : Type := {
  t_null : T;
  t_add : T -> T -> T;
  t_eqb : T -> T -> bool;
  t_int : T -> Z
}.
Arguments t_null {T}.
Arguments t_add {T}.
Arguments t_eqb {T}.
Arguments t_int {T}.

(* T = int: default_arg_workaround<int>, boolean_op.hpp:383-387 *)
Definition int_ops : count_ops Z :=
  {| t_null := 0; t_add := Z.add; t_eqb := Z.eqb; t_int := fun c => c |}.

(* T = UnaryCount: boolean_op.hpp:121-141. C++ % truncates: Z.rem *)
Definition unary_ops : count_ops Z :=
  {| t_null := 0; t_add := Z.add; t_eqb := Z.eqb; t_int := fun c => Z.rem c 2 |}.

(* T = BinaryCount<F>: boolean_op.hpp:85-119, 233-243; operator int is line 116 *)
Definition binary_ops (f : Z -> Z -> bool) : count_ops (Z * Z) :=
  {| t_null := (0, 0);
     t_add := fun a b => (fst a + fst b, snd a + snd b);
     t_eqb := fun a b => (fst a =? fst b) && (snd a =? snd b);
     t_int := fun a => b2z (f (fst a) (snd a)) |}.

(* functors, boolean_op.hpp:57-76 *)
Definition BinaryAnd (a b : Z) : bool := (a >? 0) && (b >? 0).
Definition BinaryOr (a b : Z) : bool := (a >? 0) || (b >? 0).
Definition BinaryNot (a b : Z) : bool := (a >? 0) && negb (b >? 0).
Definition BinaryXor (a b : Z) : bool := xorb (a >? 0) (b >? 0).

(* BinaryCount::operator-=, boolean_op.hpp:244-249 (it adds), operator- (257-261)
   and unary minus (263-265); not used by the scan line *)
Definition BinaryCount_sub_assign (a b : Z * Z) : Z * Z := (fst a + fst b, snd a + snd b).
Definition BinaryCount_minus (a b : Z * Z) : Z * Z := BinaryCount_sub_assign a b.
Definition BinaryCount_neg (a : Z * Z) : Z * Z := BinaryCount_minus (0, 0) a.

(* ---------- std::map with iterators as keys ---------- *)
Section Map.
Context {T : Type}.
Definition smap : Type := list (Z * T).
Definition iter : Type := option Z.      (* None: end() *)

Definition iter_eqb (a b : iter) : bool :=
  match a, b with
  | None, None => true
  | Some x, Some y => x =? y
  | _, _ => false
  end.

Definition m_begin (m : smap) : iter :=
  match m with [] => None | (k, _) :: _ => Some k end.

Fixpoint m_find (k : Z) (m : smap) : option T :=
  match m with
  | [] => None
  | (k', v) :: m' => if k' =? k then Some v else m_find k m'
  end.

Fixpoint m_lower_bound (k : Z) (m : smap) : iter :=
  match m with
  | [] => None
  | (k', _) :: m' => if k' >=? k then Some k' else m_lower_bound k m'
  end.

(* *it *)
Definition m_deref (it : iter) (m : smap) : option (Z * T) :=
  match it with
  | None => None
  | Some k => do v <- m_find k m; Some (k, v)
  end.

(* ++it *)
Fixpoint m_next (k : Z) (m : smap) : option iter :=
  match m with
  | [] => None
  | (k', _) :: m' => if k' =? k then Some (m_begin m') else m_next k m'
  end.
Definition m_incr (it : iter) (m : smap) : option iter :=
  match it with None => None | Some k => m_next k m end.

(* --it; p is the element before the head of m *)
Fixpoint m_prev (p : iter) (it : iter) (m : smap) : option iter :=
  match m with
  | [] => match it, p with None, Some k => Some (Some k) | _, _ => None end
  | (k', _) :: m' =>
      if iter_eqb it (Some k')
      then match p with Some k => Some (Some k) | None => None end
      else m_prev (Some k') it m'
  end.
Definition m_decr (it : iter) (m : smap) : option iter := m_prev None it m.

(* insert(hint, (k,v)): no effect if the key is present *)
Fixpoint m_insert (k : Z) (v : T) (m : smap) : smap :=
  match m with
  | [] => [(k, v)]
  | (k', v') :: m' =>
      if k <? k' then (k, v) :: (k', v') :: m'
      else if k =? k' then (k', v') :: m'
      else (k', v') :: m_insert k v m'
  end.

(* it->second = v *)
Fixpoint m_set (k : Z) (v : T) (m : smap) : smap :=
  match m with
  | [] => []
  | (k', v') :: m' => if k' =? k then (k', v) :: m' else (k', v') :: m_set k v m'
  end.

Fixpoint m_erase (k : Z) (m : smap) : smap :=
  match m with
  | [] => []
  | (k', v') :: m' => if k' =? k then m' else (k', v') :: m_erase k m'
  end.

(* is the iterator valid (end() or an existing element)? *)
Definition m_valid (it : iter) (m : smap) : option unit :=
  match it with None => Some tt | Some k => do _ <- m_find k m; Some tt end.
End Map.
Arguments smap : clear implicits.

(* ---------- class BooleanOp ---------- *)
Section BooleanOp.
Context {T : Type} (ops : count_ops T).

(* scanData_, nextItr_: lines 25-26 *)
Record bo_state : Type := mk_bo { scanData : smap T; nextItr : iter }.

(* constructor, lines 29-30 *)
Definition bo_init : bo_state := mk_bo [] None.

(* advanceScan, line 36 *)
Definition advanceScan (s : bo_state) : bo_state :=
  mk_bo (scanData s) (m_begin (scanData s)).

(* lookup_, lines 44-49 *)
Definition lookup_ (pos : Z) (s : bo_state) : option (iter * bo_state) :=
  match nextItr s with
  | None => let it := m_lower_bound pos (scanData s) in Some (it, mk_bo (scanData s) it)
  | Some _ =>
      do '(k, _) <- m_deref (nextItr s) (scanData s);
      if k >=? pos then Some (nextItr s, s)
      else let it := m_lower_bound pos (scanData s) in Some (it, mk_bo (scanData s) it)
  end.

(* insert_, lines 50-52; the hint must be a valid iterator *)
Definition insert_ (pos : Z) (count : T) (s : bo_state) : option (iter * bo_state) :=
  do _ <- m_valid (nextItr s) (scanData s);
  Some (Some pos, mk_bo (m_insert pos count (scanData s)) (Some pos)).

(* an element of the output container: ((low, high), value) *)
Definition out_edge : Type := ((Z * Z) * Z)%type.

(* evaluateInterval_, lines 215-225 *)
Definition evaluateInterval_ (low high : Z) (beforeCount afterCount : T) : list out_edge :=
  let before := t_int ops beforeCount >? 0 in
  let after := t_int ops afterCount >? 0 in
  let value := b2z (negb before && after) - b2z (before && negb after) in
  if value =? 0 then [] else [((low, high), value)].

(* the loop of processInterval, lines 186-193 *)
Fixpoint interval_loop (fuel : nat) (itr highItr : iter) (deltaCount : T)
  (m : smap T) (out : list out_edge) : option (smap T * list out_edge) :=
  match fuel with
  | O => None
  | S fuel' =>
      if iter_eqb itr highItr then Some (m, out)
      else
        do '(low, beforeCount) <- m_deref itr m;
        let afterCount := t_add ops beforeCount deltaCount in
        let m' := m_set low afterCount m in
        do itr' <- m_incr itr m';
        do '(high, _) <- m_deref itr' m';
        interval_loop fuel' itr' highItr deltaCount m'
          (out ++ evaluateInterval_ low high beforeCount afterCount)
  end.

(* lines 165-173: ensure that highItr points to the end of the interval *)
Definition ensure_high (high : Z) (highItr : iter) (s : bo_state) : option (iter * bo_state) :=
  do past <- match highItr with
             | None => Some true
             | Some _ => do '(k, _) <- m_deref highItr (scanData s); Some (k >? high)
             end;
  if (past : bool) then
    if negb (iter_eqb highItr (m_begin (scanData s))) then
      do highItr1 <- m_decr highItr (scanData s);
      do '(_, v) <- m_deref highItr1 (scanData s);
      insert_ high v (mk_bo (scanData s) highItr1)
    else
      insert_ high (t_null ops) (mk_bo (scanData s) highItr)
  else Some (highItr, s).

(* lines 175-184: split the low interval if needed *)
Definition split_low (low : Z) (lowItr : iter) (s : bo_state) : option (iter * bo_state) :=
  do '(k, _) <- m_deref lowItr (scanData s);
  if k >? low then
    if negb (iter_eqb lowItr (m_begin (scanData s))) then
      do lowItr1 <- m_decr lowItr (scanData s);
      do '(_, v) <- m_deref lowItr1 (scanData s);
      insert_ low v (mk_bo (scanData s) lowItr1)
    else
      insert_ low (t_null ops) (mk_bo (scanData s) lowItr)
  else Some (lowItr, s).

(* lines 195-201: merge the bottom interval with the one below *)
Definition merge_low (lowItr : iter) (m : smap T) : option (smap T) :=
  if negb (iter_eqb lowItr (m_begin m)) then
    do below <- m_decr lowItr m;
    do '(_, vb) <- m_deref below m;
    do '(k, v) <- m_deref lowItr m;
    Some (if t_eqb ops vb v then m_erase k m else m)
  else Some m.

(* lines 203-211: merge the top interval with the one above *)
Definition merge_high (highItr : iter) (m : smap T) : option (iter * smap T) :=
  if negb (iter_eqb highItr (m_begin m)) then
    do before <- m_decr highItr m;
    do '(_, vb) <- m_deref before m;
    do '(k, v) <- m_deref highItr m;
    if t_eqb ops vb v then
      let m' := m_erase k m in
      do it <- m_incr before m';
      Some (it, m')
    else Some (highItr, m)
  else Some (highItr, m).

(* processInterval, lines 152-213 *)
Definition processInterval (s : bo_state) (low high : Z) (deltaCount : T)
  : option (bo_state * list out_edge) :=
  do '(lowItr, s1) <- lookup_ low s;
  do '(highItr, s2) <- lookup_ high s1;
  match lowItr with
  | None =>
      do '(_, s3) <- insert_ low deltaCount s2;
      do '(_, s4) <- insert_ high (t_null ops) s3;
      Some (s4, evaluateInterval_ low high (t_null ops) deltaCount)
  | Some _ =>
      do '(highItr', s3) <- ensure_high high highItr s2;
      do '(lowItr', s4) <- split_low low lowItr s3;
      do '(m1, out) <- interval_loop (S (length (scanData s4))) lowItr' highItr' deltaCount (scanData s4) [];
      do m2 <- merge_low lowItr' m1;
      do '(highItr'', m3) <- merge_high highItr' m2;
      Some (mk_bo m3 highItr'', out)
  end.

(* lines 350-362 and 411-423: append the edges found on column x to the output
   vector, which is kept in reverse (head = back()) *)
Definition emit_edge (x : Z) (rout : list vertex) (e : out_edge) : list vertex :=
  let '((low, high), value) := e in
  let rout1 :=
    match rout with
    | (bx, (by_, bc)) :: r =>
        if (bx =? x) && (by_ =? low) && (bc =? value * -1) then r
        else (x, (low, value)) :: rout
    | [] => (x, (low, value)) :: rout
    end in
  (x, (high, value * -1)) :: rout1.
Definition emit (x : Z) (rout : list vertex) (c : list out_edge) : list vertex :=
  fold_left (emit_edge x) c rout.
End BooleanOp.
Arguments bo_state : clear implicits.

(* ---------- applyBooleanOr, boolean_op.hpp:385-434 ----------
   count_type(count) is [conv count]; the swap/clear of the vectors at the end
   (428-433) only replaces the contents by output. *)
Section ApplyBooleanOr.
Context {T : Type} (ops : count_ops T) (conv : Z -> T) (UnitMax : Z).

Record or_state : Type := mk_or {
  or_prevPos : Z; or_prevY : Z; or_count : Z; or_bo : bo_state T; or_rout : list vertex
}.

Definition or_init : or_state := mk_or UnitMax UnitMax 0 bo_init [].

(* one iteration of the for loop, lines 398-426 *)
Definition or_step (s : or_state) (v : vertex) : option or_state :=
  let pos := vx v in
  let y := vy v in
  if negb (pos =? or_prevPos s) then
    Some (mk_or pos y (vc v) (advanceScan (or_bo s)) (or_rout s))
  else
    do '(bo, rout) <-
      (if negb (y =? or_prevY s) && negb (or_count s =? 0) then
         do '(bo, container) <- processInterval ops (or_bo s) (or_prevY s) y (conv (or_count s));
         Some (bo, emit (or_prevPos s) (or_rout s) container)
       else Some (or_bo s, or_rout s));
    Some (mk_or (or_prevPos s) y (or_count s + vc v) bo rout).

Fixpoint or_loop (s : or_state) (input : list vertex) : option or_state :=
  match input with
  | [] => Some s
  | v :: input' => do s' <- or_step s v; or_loop s' input'
  end.

Definition applyBooleanOr_gen (input : list vertex) : option (list vertex) :=
  do s <- or_loop or_init input;
  Some (rev (or_rout s)).
End ApplyBooleanOr.

Definition applyBooleanOr (UnitMax : Z) (input : list vertex) : option (list vertex) :=
  applyBooleanOr_gen int_ops (fun c => c) UnitMax input.

Definition applyBooleanOr_unary (UnitMax : Z) (input : list vertex) : option (list vertex) :=
  applyBooleanOr_gen unary_ops (fun c => c) UnitMax input.

(* ---------- applyBooleanBinaryOp, boolean_op.hpp:268-367 ---------- *)
Section ApplyBooleanBinaryOp.
Context (f : Z -> Z -> bool) (UnitMax : Z).
Let ops := binary_ops f.

(* lines 286-309 (start) and 312-337 (loop body): take the next event of the
   two streams; result: coordinate, position, count, remaining streams *)
Definition next_event (l1 l2 : list vertex) : (Z * Z * (Z * Z)) * (list vertex * list vertex) :=
  let '(curCoord, curPosition, curCount) :=
    match l1 with
    | [] => (UnitMax, UnitMax, (0, 0))
    | v :: _ => (vx v, vy v, (vc v, 0))
    end in
  match l2 with
  | [] => ((curCoord, curPosition, curCount), (tl l1, l2))
  | w :: l2' =>
      if (vx w <? curCoord) || ((vx w =? curCoord) && (vy w <? curPosition)) then
        ((vx w, vy w, (0, vc w)), (l1, l2'))
      else if (vx w =? curCoord) && (vy w =? curPosition) then
        ((curCoord, curPosition, (fst curCount, snd curCount + vc w)), (tl l1, l2'))
      else ((curCoord, curPosition, curCount), (tl l1, l2))
  end.

Record bin_state : Type := mk_bin {
  bin_prevCoord : Z; bin_prevPosition : Z; bin_count : Z * Z;
  bin_bo : bo_state (Z * Z); bin_rout : list vertex
}.

(* lines 339-365 *)
Definition bin_step (s : bin_state) (e : Z * Z * (Z * Z)) : option bin_state :=
  let '(curCoord, curPosition, curCount) := e in
  if negb (bin_prevCoord s =? curCoord) then
    Some (mk_bin curCoord curPosition curCount (advanceScan (bin_bo s)) (bin_rout s))
  else
    do '(bo, rout) <-
      (if negb (curPosition =? bin_prevPosition s) && negb (t_eqb ops (bin_count s) (0, 0)) then
         do '(bo, container) <- processInterval ops (bin_bo s) (bin_prevPosition s) curPosition (bin_count s);
         Some (bo, emit (bin_prevCoord s) (bin_rout s) container)
       else Some (bin_bo s, bin_rout s));
    Some (mk_bin (bin_prevCoord s) curPosition (t_add ops (bin_count s) curCount) bo rout).

(* the while loop, line 311 *)
Fixpoint bin_loop (fuel : nat) (s : bin_state) (l1 l2 : list vertex) : option bin_state :=
  match l1, l2 with
  | [], [] => Some s
  | _, _ =>
      match fuel with
      | O => None
      | S fuel' =>
          let '(e, (l1', l2')) := next_event l1 l2 in
          do s' <- bin_step s e;
          bin_loop fuel' s' l1' l2'
      end
  end.

Definition applyBooleanBinaryOp (l1 l2 : list vertex) : option (list vertex) :=
  let '(start, (l1', l2')) :=
    match l1, l2 with
    | [], [] => ((UnitMax, UnitMax, (0, 0)), ([], []))
    | _, _ => next_event l1 l2
    end in
  let '(c, p, n) := start in
  do s <- bin_loop (length l1 + length l2) (mk_bin c p n bo_init []) l1' l2';
  Some (rev (bin_rout s)).
End ApplyBooleanBinaryOp.
