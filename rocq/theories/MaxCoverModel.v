(* Model of detail/max_cover.hpp and of get_max_rectangles
   (polygon_90_set_concept.hpp:101-113). A rectangle is read with the slicing
   orientation as in RectFormModel (srect): get(orient) is (s_lo,s_hi),
   get(orient.get_perpendicular()) is (s_ml,s_mh). *)
From Coq Require Import Permutation.
From Verif Require Import Base Scan90Spec Set90Spec Set90Model GeoSpec IvlModel RectFormModel.

(* Pointers to nodes are indices into the vector of nodes (250-263; it is
   reserved before, so they stay valid). The vector itself is the list of the
   rectangles; the members children_ (18) and tracedPaths_ (19) of all nodes are
   held outside: children as the list of (node,child) in the order of the calls
   of add, traced paths as a list of (node,interval). *)
Definition sr_ivl (r : srect) : ivl := mk_ivl (s_lo r) (s_hi r).
Definition kids (edges : list (nat * nat)) (i : nat) : list nat :=
  map snd (filter (fun e => Nat.eqb (fst e) i) edges).

(* equivalence of keys of std::set<Interval> (operator<, IvlModel.ivl_less) *)
Definition ivl_same (i j : ivl) : bool := negb (ivl_less i j) && negb (ivl_less j i).
Record mstate : Type := mk_ms { ms_traced : list (nat * ivl); ms_out : list srect }.
(* tracedPath, 28-30; addPath, 31-33; push_back on the output container, whose
   last element comes first *)
Definition traced (st : mstate) (n : nat) (i : ivl) : bool :=
  existsb (fun p => Nat.eqb (fst p) n && ivl_same (snd p) i) (ms_traced st).
Definition add_path (n : nat) (i : ivl) (st : mstate) : mstate := mk_ms ((n, i) :: ms_traced st) (ms_out st).
Definition write (r : srect) (st : mstate) : mstate := mk_ms (ms_traced st) (r :: ms_out st).

(* lessEdgeAssociation, 38-50 *)
Definition lead_less (a b : srect) : bool :=
  if s_ml a <? s_ml b then true else if s_ml a >? s_ml b then false else ivl_less (sr_ivl a) (sr_ivl b).
(* what polygon_sort may make of leadingEdges, 195-203: the nodes in an order in
   which none is less than one before it *)
Definition sorted_leads (ns : list srect) (lead : list nat) : Prop :=
  Permutation lead (seq 0 (length ns)) /\
  ForallOrdPairs (fun i j => forall a b, nth_error ns i = Some a -> nth_error ns j = Some b -> lead_less b a = false) lead.

(* the loop of computeDag, 206-240; [t] is trailingBegin, dereferencing it at
   the end is undefined *)
Fixpoint dag_loop (fuel : nat) (ns : list srect) (lead : list nat) (t : nat) (edges : list (nat * nat))
  : option (list (nat * nat)) :=
  match lead with
  | [] => Some edges
  | l :: lead' =>
      match fuel with
      | O => None
      | S fuel' =>
          do a <- nth_error ns l;
          do b <- nth_error ns t;
          if s_ml a <? s_mh b then dag_loop fuel' ns lead' t edges
          else if s_ml a >? s_mh b then dag_loop fuel' ns lead (S t) edges
          else if s_hi a <=? s_lo b then dag_loop fuel' ns lead' t edges
          else if s_hi b <=? s_lo a then dag_loop fuel' ns lead (S t) edges
          else
            let edges' := edges ++ [(t, l)] in
            if s_hi a >? s_hi b then dag_loop fuel' ns lead (S t) edges'
            else if s_hi b >? s_hi a then dag_loop fuel' ns lead' t edges'
            else dag_loop fuel' ns lead' (S t) edges'
      end
  end.
Definition computeDag (ns : list srect) (lead : list nat) : option (list (nat * nat)) :=
  dag_loop (length lead + length ns) ns lead 0 [].

(* the loops 67-71 and 118-123: no child contains the interval *)
Fixpoint no_child_contains (ns : list srect) (ks : list nat) (i : ivl) : option bool :=
  match ks with
  | [] => Some true
  | k :: ks' =>
      do c <- nth_error ns k;
      do b <- no_child_contains ns ks' i;
      Some (negb (contains_i (sr_ivl c) i true) && b)
  end.

(* stack_element, 78-88, and the local variables of getMaxCover, 91-171. The
   upper end of rect in the perpendicular direction is set but never read. *)
Record frame : Type := mk_fr { f_node : nat; f_rect : srect; f_itr : nat }.
Record config : Type := mk_cfg { c_stack : list frame; c_node : nat; c_rect : srect; c_itr : nat; c_st : mstate }.

(* one round of the loop, 98-170 *)
Definition mc_step (ns : list srect) (edges : list (nat * nat)) (c : config) : option config :=
  let '(mk_cfg stack node rect itr st) := c in
  do nd <- nth_error ns node;
  let '(iresult, i) := intersect_i (sr_ivl rect) (sr_ivl nd) false in
  let tresult := negb (traced st node i) in
  let nextRect1 := mk_sr (lo i) (hi i) (s_ml rect) (s_mh nd) in
  do st1 <- (if iresult && tresult then
               do writeOut <- no_child_contains ns (kids edges node) i;
               let st' := add_path node i st in
               Some (if writeOut then write nextRect1 st' else st')
             else Some st);
  if negb (Nat.eqb itr (length (kids edges node))) && iresult && tresult then
    do child <- nth_error (kids edges node) itr;
    Some (mk_cfg (mk_fr node rect itr :: stack) child nextRect1 0 st1)
  else
    let '(stack2, node2, rect2, itr2) :=
      match stack with
      | [] => (stack, node, rect, itr)
      | f :: stack' => (stack', f_node f, f_rect f, f_itr f)
      end in
    if Nat.eqb itr2 (length (kids edges node2)) then Some (mk_cfg stack2 node2 rect2 itr2 st1)
    else if Nat.eqb (S itr2) (length (kids edges node2)) then Some (mk_cfg stack2 node2 rect2 (S itr2) st1)
    else
      do nd2 <- nth_error ns node2;
      let i2 := snd (intersect_i (sr_ivl rect2) (sr_ivl nd2) false) in
      do child <- nth_error (kids edges node2) (S itr2);
      Some (mk_cfg (mk_fr node2 rect2 (S itr2) :: stack2) child
              (mk_sr (lo i2) (hi i2) (s_ml rect2) (s_mh nd2)) 0 st1).
(* the condition of the loop, 171, is false *)
Definition mc_done (edges : list (nat * nat)) (c : config) : bool :=
  match c_stack c with [] => Nat.eqb (c_itr c) (length (kids edges (c_node c))) | _ => false end.
Fixpoint mc_loop (fuel : nat) (ns : list srect) (edges : list (nat * nat)) (c : config) : option mstate :=
  match fuel with
  | O => None
  | S fuel' =>
      do c' <- mc_step ns edges c;
      if mc_done edges c' then Some (c_st c') else mc_loop fuel' ns edges c'
  end.

(* getMaxCover for one node, 52-76 *)
Fixpoint mc_children (fuel : nat) (ns : list srect) (edges : list (nat * nat)) (nd : srect) (ks : list nat) (st : mstate)
  : option mstate :=
  match ks with
  | [] => Some st
  | k :: ks' =>
      do st1 <- mc_loop fuel ns edges (mk_cfg [] k nd 0 st);
      mc_children fuel ns edges nd ks' st1
  end.
Definition mc_root (fuel : nat) (ns : list srect) (edges : list (nat * nat)) (n : nat) (st : mstate) : option mstate :=
  do nd <- nth_error ns n;
  if traced st n (sr_ivl nd) then Some st
  else
    let st1 := add_path n (sr_ivl nd) st in
    match kids edges n with
    | [] => Some (write nd st1)
    | ks =>
        do st2 <- mc_children fuel ns edges nd ks st1;
        do writeOut <- no_child_contains ns ks (sr_ivl nd);
        Some (if writeOut then write nd st2 else st2)
    end.
Fixpoint mc_roots (fuel : nat) (ns : list srect) (edges : list (nat * nat)) (l : list nat) (st : mstate) : option mstate :=
  match l with
  | [] => Some st
  | n :: l' => do st1 <- mc_root fuel ns edges n st; mc_roots fuel ns edges l' st1
  end.

(* getMaxCover, 244-263, on an empty output container *)
Definition mc_cover (fuel : nat) (lead : list nat) (ns : list srect) : option (list srect) :=
  match ns with
  | [] => Some []
  | [r] => Some [r]
  | _ =>
      do edges <- computeDag ns lead;
      do st <- mc_roots fuel ns edges (seq 0 (length ns)) (mk_ms [] []);
      Some (rev (ms_out st))
  end.

Definition of_rect (o : orient) (r : rect) : srect :=
  match o with
  | Vertical => mk_sr (yl r) (yh r) (xl r) (xh r)
  | Horizontal => mk_sr (xl r) (xh r) (yl r) (yh r)
  end.
Definition sr_rect (o : orient) (r : srect) : rect :=
  match o with
  | Vertical => mk_rect (s_ml r) (s_mh r) (s_lo r) (s_hi r)
  | Horizontal => mk_rect (s_lo r) (s_hi r) (s_ml r) (s_mh r)
  end.

(* get_max_rectangles, polygon_90_set_concept.hpp:109-113. The vector of
   rectangles is assigned from the set (polygon_90_set_traits.hpp:291-300 with
   get_90_dispatch 251-255): the vertices are inserted in a set of the same
   orientation, which is normalised and decomposed. *)
Definition get_max_rectangles (fuel : nat) (sort : list srect -> list nat) (s : pset) : option (list rect) :=
  let o := ps_orient s in
  do ps <- ps_clean (ps_insert_range (ps_new o) (ps_data s) o);
  do rs <- form_rectangles o (ps_data ps);
  let ns := map (of_rect o) rs in
  do out <- mc_cover fuel (sort ns) ns;
  Some (map (sr_rect o) out).
