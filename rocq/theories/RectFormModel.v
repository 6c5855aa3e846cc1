(* Model of detail/rectangle_formation.hpp and of get_rectangles of
   polygon_90_set_data. *)
From Verif Require Import Base Scan90Spec IsoSpec IsoModel Set90Spec Set90Model.

(* A rectangle of the scan line, read with the slicing orientation: get(orient)
   is (lo,hi), get(orient.get_perpendicular()) is (ml,mh). *)
Record srect : Type := mk_sr { s_lo : Z; s_hi : Z; s_ml : Z; s_mh : Z }.

(* less_rectangle_concept, rectangle_concept.hpp:1020-1052 *)
Definition sr_less (a b : srect) : bool :=
  if s_lo a >? s_lo b then false
  else if s_lo a =? s_lo b then
    if s_ml a >? s_ml b then false
    else if s_ml a =? s_ml b then
      if s_hi a >? s_hi b then false
      else if s_hi a =? s_hi b then s_mh a <? s_mh b
      else true
    else true
  else true.

(* std::set<scan_rect_type, less_rectangle_concept>: the ordered list of its
   elements. An iterator is an element, or None for end(); it stays valid while
   other elements are inserted or erased. *)
Fixpoint set_insert (r : srect) (S : list srect) : list srect :=
  match S with
  | [] => [r]
  | s :: S' => if sr_less r s then r :: S else if sr_less s r then s :: set_insert r S' else S
  end.
Definition sr_eqb (a b : srect) : bool :=
  (s_lo a =? s_lo b) && (s_hi a =? s_hi b) && (s_ml a =? s_ml b) && (s_mh a =? s_mh b).
Fixpoint set_erase (r : srect) (S : list srect) : option (list srect) :=
  match S with
  | [] => None
  | s :: S' => if sr_eqb r s then Some S' else do S2 <- set_erase r S'; Some (s :: S2)
  end.
(* lower_bound: the first element that is not less than the key *)
Definition set_lower_bound (r : srect) (S : list srect) : option srect :=
  find (fun s => negb (sr_less s r)) S.
(* ++it *)
Definition set_next (r : srect) (S : list srect) : option srect := find (sr_less r) S.
(* --it for it <> begin() *)
Fixpoint last_opt (l : list srect) : option srect :=
  match l with [] => None | [r] => Some r | _ :: l' => last_opt l' end.
Definition set_prev (it : option srect) (S : list srect) : option srect :=
  match it with
  | None => last_opt S
  | Some r => last_opt (filter (fun s => sr_less s r) S)
  end.
Definition is_begin (it : option srect) (S : list srect) : bool :=
  match it, S with
  | None, [] => true
  | Some r, s :: _ => sr_eqb r s
  | _, _ => false
  end.

(* the members of ScanLineToRects (22-26) and the output container, whose last
   element comes first; rectangles are written as scan rectangles *)
Record scan : Type := mk_scan {
  sc_data : list srect; sc_have : bool; sc_cur : srect; sc_cc : Z; sc_out : list srect }.

(* the first while loop of processEdge_, 62-67 *)
Fixpoint back_up (fuel : nat) (el : Z) (S : list srect) (it : option srect) : option (option srect) :=
  if (match it with None => true | Some r => s_lo r >? el end) && negb (is_begin it S) then
    match fuel with
    | O => None
    | Datatypes.S fuel' => do r <- set_prev it S; back_up fuel' el S (Some r)
    end
  else Some it.

(* "write out rectangle": 78-90 and 116-127 *)
Definition write_out (cc : Z) (r : srect) (out : list srect) : list srect :=
  if s_ml r <? cc then mk_sr (s_lo r) (s_hi r) (s_ml r) cc :: out else out.

(* contains(rect.get(orient), edge, true), interval_concept.hpp:268-299 *)
Definition contains_edge (r : srect) (el eh : Z) : bool :=
  (el <=? s_hi r) && (el >=? s_lo r) && ((eh <=? s_hi r) && (eh >=? s_lo r)).

(* the main loop of processEdge_, 70-174; the result is the state and the flag
   edgeProcessed *)
Fixpoint edge_loop (fuel : nat) (el eh : Z) (st : scan) (it : option srect) (ep : bool)
  : option (scan * bool) :=
  match it with
  | None => Some (st, ep)
  | Some rect =>
      if s_lo rect <=? eh then
        match fuel with
        | O => None
        | Datatypes.S fuel' =>
            let '(mk_scan data have cur cc out) := st in
            if s_hi rect >=? el then
              if contains_edge rect el eh then
                (* 74-112, then break *)
                let out1 := write_out cc rect out in
                do data1 <- set_erase rect data;
                let data2 := if s_lo rect <? el
                             then set_insert (mk_sr (s_lo rect) el cc cc) data1 else data1 in
                let data3 := if s_hi rect >? eh
                             then set_insert (mk_sr eh (s_hi rect) cc cc) data2 else data2 in
                Some (mk_scan data3 have cur cc out1, true)
              else
                (* 113-169, then continue *)
                let out1 := write_out cc rect out in
                let nextIter := set_next rect data in
                do data1 <- set_erase rect data;
                let fresh := mk_sr (Z.min (s_lo rect) el) (Z.max (s_hi rect) eh) cc cc in
                let '(data2, have2, cur2) :=
                  if have then
                    if s_hi cur >=? el then
                      if negb ep && (s_hi cur >? el) then
                        let d := set_insert (mk_sr (s_lo cur) el (s_ml cur) (s_mh cur)) data1 in
                        if s_hi cur >? eh
                        then (d, true, mk_sr eh (s_hi cur) (s_ml cur) (s_mh cur))
                        else (d, false, cur)
                      else (data1, true,
                            mk_sr (s_lo cur) (Z.max eh (s_hi rect)) (s_ml cur) (s_mh cur))
                    else (set_insert cur data1, true, fresh)
                  else (data1, true, fresh) in
                edge_loop fuel' el eh (mk_scan data2 have2 cur2 cc out1) nextIter true
            else edge_loop fuel' el eh st (set_next rect data) ep
        end
      else Some (st, ep)
  end.

(* 178-216: the edge touches no rectangle of the scan data *)
Definition edge_rest (el eh : Z) (st : scan) : scan :=
  let '(mk_scan data have cur cc out) := st in
  let isolated data := mk_scan (set_insert (mk_sr el eh cc cc) data) false cur cc out in
  if have then
    if (s_mh cur =? cc) && (s_hi cur >=? el) then
      if s_hi cur >? el then
        let data1 := set_insert (mk_sr (s_lo cur) el (s_ml cur) (s_mh cur)) data in
        if s_hi cur >? eh
        then mk_scan data1 true (mk_sr eh (s_hi cur) (s_ml cur) (s_mh cur)) cc out
        else mk_scan data1 false cur cc out
      else mk_scan data true (mk_sr (s_lo cur) eh (s_ml cur) (s_mh cur)) cc out
    else isolated (set_insert cur data)
  else isolated data.

(* processEdge_, 51-218; the key of lower_bound is the rectangle with both
   intervals equal to the edge, line 60 *)
Definition processEdge (el eh : Z) (st : scan) : option scan :=
  do '(st1, ep) <-
    match sc_data st with
    | [] => Some (st, false)
    | _ =>
        let data := sc_data st in
        do it <- back_up (length data) el data (set_lower_bound (mk_sr el eh el eh) data);
        edge_loop (Datatypes.S (length data)) el eh st it false
    end;
  Some (if ep then st1 else edge_rest el eh st1).

(* nextMajorCoordinate, 40-47 *)
Definition nextMajorCoordinate (c : Z) (st : scan) : scan :=
  let '(mk_scan data have cur cc out) := st in
  mk_scan (if have then set_insert cur data else data) false cur c out.

(* the loop of form_rectangles, 247-262. *itr for itr = end is undefined. *)
Fixpoint form_loop (st : scan) (prevPos : Z) (V : list vertex) : option scan :=
  match V with
  | [] => Some st
  | v :: V1 =>
      match V1 with
      | [] => None
      | w :: V2 =>
          let st1 := if vx v =? prevPos then st else nextMajorCoordinate (vx v) st in
          do st2 <- processEdge (vy v) (vy w) st1;
          if Z.abs (vc w) >? 1 then form_loop st2 (vx v) V1 else form_loop st2 (vx v) V2
      end
  end.

(* form_rectangles, 241-263; a default constructed rectangle has unspecified
   coordinates, modelled as 0, that are never read *)
Definition scan_start : scan := mk_scan [] false (mk_sr 0 0 0 0) INT_MAX [].
Definition form_rectangles (o : orient) (V : list vertex) : option (list rect) :=
  do st <- form_loop scan_start INT_MAX V;
  Some (map (fun r => match o with
                      | Vertical => mk_rect (s_ml r) (s_mh r) (s_lo r) (s_hi r)
                      | Horizontal => mk_rect (s_lo r) (s_hi r) (s_ml r) (s_mh r)
                      end) (rev (sc_out st))).

(* get_rectangles(output), polygon_90_set_data.hpp:177-181 *)
Definition ps_get_rectangles (s : pset) : option (list rect * pset) :=
  do s1 <- ps_clean s;
  do rs <- form_rectangles (ps_orient s1) (ps_data s1);
  Some (rs, s1).

(* transform of a rectangle by an axis transformation, rectangle_concept.hpp:
   1008-1018 with set_points: the two corners are transformed and put in order *)
Definition rect_transform (t : isometry) (r : rect) : outcome rect :=
  try ' (a, b) <- iso_transform t (xl r) (yl r);
  try ' (c, d) <- iso_transform t (xh r) (yh r);
  let h := ivl_construct a c in
  let v := ivl_construct b d in
  Ok (mk_rect (fst h) (snd h) (fst v) (snd v)).
Fixpoint map_rects (g : rect -> outcome rect) (l : list rect) : outcome (list rect) :=
  match l with
  | [] => Ok []
  | r :: l' => try r' <- g r; try l'' <- map_rects g l'; Ok (r' :: l'')
  end.

(* get_rectangles(output, slicing_orientation), 183-195; the set itself is
   normalised only in the first case *)
Definition ps_get_rectangles_sliced (o : orient) (s : pset) : outcome (list rect * pset) :=
  if orient_eqb o (ps_orient s) then lift (ps_get_rectangles s)
  else
    let t := mk_iso SWAP_XY 0 0 in
    try ps <- ps_transform t s;
    try ' (rs, _) <- lift (ps_get_rectangles ps);
    try rs2 <- map_rects (rect_transform t) rs;
    Ok (rs2, s).

(* the free function get_rectangles(output, polygon_set), polygon_90_set_
   concept.hpp:78-87: a VERTICAL copy is decomposed; clean() before it
   normalises the argument *)
Definition free_get_rectangles (s : pset) : option (list rect * pset) :=
  do s1 <- ps_clean s;
  do '(rs, _) <- ps_get_rectangles (ps_assign_set Vertical s1);
  Some (rs, s1).
