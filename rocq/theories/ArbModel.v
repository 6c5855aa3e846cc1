(* Model of the scan line over edges in any direction, class scanline of
   detail/scan_arbitrary.hpp, and of what is built on it: arbitrary_boolean_op,
   for int coordinates.

   The scan line is a std::map whose order depends on the position of the scan
   line. It is a list here; lower_bound looks for the first element that is not
   less than the key. Iterators are positions in the list, or the keys. Properties
   are integers. The counts are unbounded: fewer than 2^31 edges with counts 1 and
   -1 do not overflow an int. *)
From Verif Require Import Base Units Outcome Scan90Spec Poly90Spec Poly90Model Set90Spec Set90Model GeoSpec IvlModel RectModel SegModel PolyModel ScanBaseModel SnapModel ArbSpec.

(* vertex_property: an edge, its property, its count *)
Definition vprop : Type := (seg * (Z * Z))%type.
(* property_map *)
Definition pmap : Type := list (Z * Z).
(* scanline_element *)
Definition elem : Type := (seg * pmap)%type.
(* what is written out: edge, properties on its left, on its right *)
Definition osides : Type := (seg * (list Z * list Z))%type.

(* ---------- less_half_edge, detail/polygon_arbitrary_formation.hpp:268-345 ---------- *)
(* a difference of ints that is an argument of less_slope<int>, 89-118, where it may be negated *)
Definition int_diff (z : Z) : outcome Z :=
  try a <- chk z;
  try b <- chk (- z);
  Ok a.
(* the end of s at abscissa x, 297-304 and 305-314 *)
Definition end_at (x : Z) (s : seg) : option Z :=
  if x =? px (s_low s) then Some (py (s_low s))
  else if x =? px (s_high s) then Some (py (s_high s))
  else None.
(* operator(), 287-343; x is *x_, jb is *justBefore_ *)
Definition he_less (x : Z) (jb : bool) (e1 e2 : seg) : outcome bool :=
  let l1 := s_low e1 in let h1 := s_high e1 in
  let l2 := s_low e2 in let h2 := s_high e2 in
  if Z.max (py l1) (py h1) <? Z.min (py l2) (py h2) then Ok true
  else if Z.min (py l1) (py h1) >? Z.max (py l2) (py h2) then Ok false
  else
    match end_at x e1, end_at x e2 with
    | Some y1, Some y2 =>
        if y1 <? y2 then Ok true
        else if y1 =? y2 then
          if seg_eqb e1 e2 then Ok false
          else
            try dx1 <- int_diff (px h1 - px l1);
            try dy1 <- int_diff (py h1 - py l1);
            try dx2 <- int_diff (px h2 - px l2);
            try dy2 <- int_diff (py h2 - py l2);
            Ok (xorb jb (eu_less_slope4 dx1 dy1 dx2 dy2))
        else Ok false
    | _, _ =>
        if sb_oab l1 e2 =? sb_oab h1 e2 then Ok (sb_oab l1 e2 =? -1)
        else Ok (sb_oab l2 e1 =? 1)
    end.

(* ---------- property maps, detail/scan_arbitrary.hpp ---------- *)
(* merge_property_maps, 1241-1273 *)
Fixpoint pm_merge (a : pmap) : pmap -> pmap :=
  match a with
  | [] => fun b => b
  | (k, c) :: a' =>
      fix go (b : pmap) : pmap :=
        match b with
        | [] => (k, c) :: a'
        | (k', c') :: b' =>
            if k <? k' then (k, c) :: pm_merge a' b
            else if k >? k' then (k', c') :: go b'
            else if c + c' =? 0 then pm_merge a' b'
            else (k, c + c') :: pm_merge a' b'
        end
  end.
(* update_property_map, 1275-1295 *)
Fixpoint pm_update (m : pmap) (k c : Z) : pmap :=
  match m with
  | [] => [(k, c)]
  | (k', c') :: m' =>
      if k =? k' then if c + c' =? 0 then m' else (k, c + c') :: m'
      else if k <? k' then (k, c) :: (k', c') :: m'
      else (k', c') :: pm_update m' k c
  end.
(* set_unique_property, 1297-1303 *)
Definition pm_set (m : pmap) : list Z := map fst (filter (fun e => snd e >? 0) m).
Fixpoint zs_eqb (a b : list Z) : bool :=
  match a, b with
  | [], [] => true
  | x :: a', y :: b' => (x =? y) && zs_eqb a' b'
  | _, _ => false
  end.
(* write_out, 1015-1027 *)
Definition write_out (out : list osides) (he : seg) (left right : pmap) : list osides :=
  if zs_eqb (pm_set left) (pm_set right) then out else out ++ [(he, (pm_set left, pm_set right))].

(* ---------- the map ---------- *)
(* scan_data_.lower_bound *)
Fixpoint lb (x : Z) (jb : bool) (key : seg) (d : list elem) : outcome nat :=
  match d with
  | [] => Ok O
  | e :: d' =>
      try b <- he_less x jb (fst e) key;
      if b : bool then try n <- lb x jb key d'; Ok (S n) else Ok O
  end.
(* scan_data_.insert: an equivalent key is not replaced *)
Fixpoint map_insert (x : Z) (jb : bool) (e : elem) (d : list elem) : outcome (list elem) :=
  match d with
  | [] => Ok [e]
  | f :: d' =>
      try b <- he_less x jb (fst f) (fst e);
      if b : bool then try r <- map_insert x jb e d'; Ok (f :: r)
      else
        try b' <- he_less x jb (fst e) (fst f);
        Ok (if b' : bool then e :: f :: d' else f :: d')
  end.
(* scan_data_.erase *)
Fixpoint map_erase (key : seg) (d : list elem) : outcome (list elem) :=
  match d with
  | [] => Undefined
  | e :: d' => if seg_eqb key (fst e) then Ok d' else try r <- map_erase key d'; Ok (e :: r)
  end.
Fixpoint map_erase_all (keys : list seg) (d : list elem) : outcome (list elem) :=
  match keys with
  | [] => Ok d
  | k :: keys' => try d1 <- map_erase k d; map_erase_all keys' d1
  end.
(* the vertical edge that is looked up, 1063-1068 and 1180-1186 *)
Definition vhe (p : point) : outcome seg :=
  try y <- (if negb (py p =? INT_MAX) then chk (py p + 1) else chk (py p - 1));
  Ok (mk_seg p (mk_pt (px p) y)).

(* ---------- handle_input_events, 1029-1157 ---------- *)
(* 1074-1078: down to an element below p, or to the first one *)
Fixpoint go_down (p : point) (d : list elem) (i : nat) : outcome nat :=
  match nth_error d i with
  | None => Undefined
  | Some e =>
      if sb_oab p (fst e) =? 1 then Ok i
      else match i with O => Ok O | S j => go_down p d j end
  end.
(* 1090-1097: past the elements that come to p; d is the map from position i on *)
Fixpoint go_up (p : point) (d : list elem) (i : nat) : nat :=
  match d with
  | [] => i
  | e :: d' => if sb_oab p (fst e) =? 0 then go_up p d' (S i) else i
  end.
(* 1052-1097: the properties just below p, and the new position *)
Definition props_below (p : point) (d : list elem) (cur : nat) : outcome (pmap * nat) :=
  try ' (m, i) <-
    (if Nat.eqb cur (length d) then Ok ([], cur)
     else
       try c1 <-
         match nth_error d cur with
         | None => Undefined
         | Some e =>
             if negb (sb_oab p (fst e) =? 0) then
               try v <- vhe p;
               lb (px p) true v d
             else Ok cur
         end;
       if Nat.eqb c1 (length d) then Ok ([], c1)
       else
         try c2 <- go_down p d c1;
         match nth_error d c2 with
         | None => Undefined
         | Some e => Ok (if sb_oab p (fst e) =? 1 then (snd e, S c2) else ([], c2))
         end);
  Ok (m, go_up p (skipn i d) i).

(* vertical_properties_above, _below, vertical_edge_above, _below, insertion_elements,
   current_iter, y, first_iteration, begin to end, result, insertion_set_ *)
Record hstate : Type := mk_h {
  h_va : pmap; h_vb : pmap; h_ea : option seg; h_eb : option seg; h_ins : list elem;
  h_cur : nat; h_yy : Z; h_first : bool; h_rest : list vprop; h_out : list osides; h_set : list elem }.

(* 1107-1117: the properties of the new edges are summed up from below *)
Fixpoint write_ins (base : pmap) (ins : list elem) (out : list osides) (set : list elem) : list osides * list elem :=
  match ins with
  | [] => (out, set)
  | (he, m) :: ins' =>
      let m' := pm_merge m base in
      write_ins m' ins' (write_out out he m' base) (set ++ [(he, m')])
  end.
(* 1050-1117 *)
Definition flush (x : Z) (d : list elem) (s : hstate) : outcome hstate :=
  try ' (below, cur) <- props_below (mk_pt x (h_yy s)) d (h_cur s);
  let vb := pm_merge (h_vb s) below in
  try out <-
    match h_vb s with
    | [] => Ok (h_out s)
    | _ => match h_eb s with None => Undefined | Some e => Ok (write_out (h_out s) e below vb) end
    end;
  let '(out, set) := write_ins vb (h_ins s) out (h_set s) in
  Ok (mk_h (h_va s) vb (h_ea s) (h_eb s) (h_ins s) cur (h_yy s) (h_first s) (h_rest s) out set).
(* 1121-1124 and 1129-1132 *)
Definition h_swap (s : hstate) : hstate :=
  mk_h [] (h_va s) (h_ea s) (h_ea s) [] (h_cur s) (h_yy s) (h_first s) (h_rest s) (h_out s) (h_set s).
Definition h_at (s : hstate) (y : Z) : hstate :=
  mk_h (h_va s) (h_vb s) (h_ea s) (h_eb s) (h_ins s) (h_cur s) y (h_first s) (h_rest s) (h_out s) (h_set s).
(* 1142-1147: the element for a new edge that is not vertical *)
Definition ins_add (ins : list elem) (he : seg) (k c : Z) : list elem :=
  match rev ins with
  | (he', m) :: r => if seg_eqb he' he then rev r ++ [(he, pm_update m k c)] else ins ++ [(he, pm_update [] k c)]
  | [] => [(he, pm_update [] k c)]
  end.
(* 1134-1151 *)
Definition h_read (s : hstate) : outcome hstate :=
  match h_rest s with
  | [] => Ok s
  | (he, (k, c)) :: rest' =>
      let y := py (s_low he) in
      let consume :=
        if sb_vertical he then
          mk_h (pm_update (h_va s) k c) (h_vb s) (Some he) (h_eb s) (h_ins s) (h_cur s) y false rest' (h_out s) (h_set s)
        else
          mk_h (h_va s) (h_vb s) (h_ea s) (h_eb s) (ins_add (h_ins s) he k c) (h_cur s) y false rest' (h_out s) (h_set s) in
      match h_vb s with
      | [] => Ok consume
      | _ =>
          match h_eb s with
          | None => Undefined
          | Some eb =>
              if py (s_high eb) <? y
              then Ok (mk_h (h_va s) (h_vb s) (h_ea s) (h_eb s) (h_ins s) (h_cur s) (py (s_high eb)) false (h_rest s) (h_out s) (h_set s))
              else Ok consume
          end
      end
  end.
(* 1046-1048 and 1118 *)
Definition h_stop (x : Z) (s : hstate) : bool :=
  match h_rest s with
  | [] => true
  | e :: _ => negb (h_first s) && (negb (py (s_low (fst e)) =? h_yy s) || negb (px (s_low (fst e)) =? x))
  end.
Definition col_end (x : Z) (rest : list vprop) : bool :=
  match rest with [] => true | e :: _ => negb (px (s_low (fst e)) =? x) end.
(* the loop, 1045-1152 *)
Fixpoint h_loop (fuel : nat) (x : Z) (d : list elem) (s : hstate) : outcome hstate :=
  match fuel with
  | O => Undefined
  | S fuel' =>
      if h_stop x s then
        try s1 <- flush x d s;
        if col_end x (h_rest s1) then
          match h_va s1 with
          | [] => Ok s1
          | _ =>
              match h_ea s1 with
              | None => Undefined
              | Some ea => h_loop fuel' x d (h_at (h_swap s1) (py (s_high ea)))
              end
          end
        else
          try s2 <- h_read (h_swap s1);
          h_loop fuel' x d s2
      else
        try s2 <- h_read s;
        h_loop fuel' x d s2
  end.
Definition handle_input_events (x : Z) (d : list elem) (rest : list vprop) (out : list osides) : outcome (list vprop * list osides * list elem) :=
  try s <- h_loop (2 * length rest + 2) x d (mk_h [] [] None None [] 0 INT_MIN true rest out []);
  Ok (h_rest s, h_out s, h_set s).

(* ---------- remove_retired_edges_from_scanline, 1159-1196 ---------- *)
(* 1188-1192: d is the map from the position on *)
Fixpoint ending_at (p : point) (d : list elem) : list seg :=
  match d with
  | [] => []
  | e :: d' => if pt_eqb (s_high (fst e)) p then fst e :: ending_at p d' else []
  end.
Fixpoint retire (q : list point) (current previous : Z) (rem : list seg) (d : list elem) : outcome (list point * list elem) :=
  match q with
  | [] => try d1 <- map_erase_all rem d; Ok ([], d1)
  | p :: q' =>
      if px p <=? current then
        try ' (rem1, d1) <-
          (if negb (px p =? previous) then try d1 <- map_erase_all rem d; Ok ([], d1) else Ok (rem, d));
        try v <- vhe p;
        try i <- lb (px p) true v d1;
        retire q' current (px p) (rem1 ++ ending_at p (skipn i d1)) d1
      else try d1 <- map_erase_all rem d; Ok (q, d1)
  end.
Definition remove_retired (x : Z) (q : list point) (d : list elem) : outcome (list point * list elem) := retire q x x [] d.
(* insert_new_edges_into_scanline, 1198-1206 *)
Fixpoint insert_new (x : Z) (set : list elem) (q : list point) (d : list elem) : outcome (list point * list elem) :=
  match set with
  | [] => Ok (q, d)
  | e :: set' =>
      try d1 <- map_insert x false e d;
      insert_new x set' (set_insert (s_high (fst e)) q) d1
  end.

(* ---------- scan, 1210-1226; the functor is applied to the result afterwards ---------- *)
Fixpoint scan_loop (fuel : nat) (rest : list vprop) (q : list point) (d : list elem) (out : list osides) : outcome (list osides) :=
  match rest with
  | [] =>
      try ' (q1, d1) <- remove_retired INT_MAX q d;
      Ok out
  | e :: _ =>
      match fuel with
      | O => Undefined
      | S fuel' =>
          let x := px (s_low (fst e)) in
          try xm <- chk (x - 1);
          try ' (q1, d1) <- remove_retired xm q d;
          try ' (rest1, out1, set) <- handle_input_events x d1 rest out;
          try ' (q2, d2) <- remove_retired x q1 d1;
          try ' (q3, d3) <- insert_new x set q2 d2;
          scan_loop fuel' rest1 q3 d3 out1
      end
  end.
Definition scan (l : list vprop) : outcome (list osides) := scan_loop (length l) l [] [] [].

(* ---------- arbitrary_boolean_op, 2493-2656 ---------- *)
(* less_vertex_data, 2520-2536 *)
Definition vd_less (a b : vprop) : outcome bool :=
  if pt_less (s_low (fst a)) (s_low (fst b)) then Ok true
  else if pt_less (s_low (fst b)) (s_low (fst a)) then Ok false
  else he_less (px (s_low (fst a))) false (fst a) (fst b).
(* polygon_sort *)
Fixpoint vd_insert (a : vprop) (l : list vprop) : outcome (list vprop) :=
  match l with
  | [] => Ok [a]
  | b :: l' =>
      try c <- vd_less b a;
      if c : bool then try r <- vd_insert a l'; Ok (b :: r) else Ok (a :: l)
  end.
Fixpoint vd_sort (l : list vprop) : outcome (list vprop) :=
  match l with [] => Ok [] | a :: l' => try r <- vd_sort l'; vd_insert a r end.

(* validate_scan with properties, 229-258; an index without a segment is undefined *)
Definition vs_out (input : list vprop) (e : entry) : outcome vprop :=
  if snd e <? 0 then Undefined
  else
    match nth_error input (Z.to_nat (snd e)) with
    | None => Undefined
    | Some (s, (k, c)) =>
        let o := fst e in
        let c1 := if Bool.eqb (pt_less (s_low o) (s_high o)) (pt_less (s_low s) (s_high s)) then c else c * -1 in
        let c2 := if negb (sb_vertical s) && sb_vertical o then c1 * -1 else c1 in
        Ok (if pt_less (s_high o) (s_low o) then mk_seg (s_high o) (s_low o) else o, (k, c2))
    end.
Fixpoint vs_outs (input : list vprop) (l : list entry) : outcome (list vprop) :=
  match l with
  | [] => Ok []
  | e :: l' =>
      try a <- vs_out input e;
      try r <- vs_outs input l';
      Ok (a :: r)
  end.
Definition validate_props (input : list vprop) : outcome (list vprop) :=
  try pieces <- validate_scan (number_from 0 (map fst input));
  vs_outs input pieces.

(* an edge with a count, an element of polygon_set_data *)
Definition pedge : Type := (seg * Z)%type.
(* boolean_output_functor, 2538-2589, with insert_clean, polygon_set_data.hpp:179-190 *)
Definition insert_clean (e : pedge) : pedge :=
  if pt_less (s_high (fst e)) (s_low (fst e)) then (mk_seg (s_high (fst e)) (s_low (fst e)), snd e * -1) else e.
Definition bool_out (op : bool_op) (o : osides) : list pedge :=
  let '(he, (ls, rs)) := o in
  let c := 1 in
  let c := if pt_less (s_high he) (s_low he) then c * -1 else c in
  let c := if sb_vertical he then c * -1 else c in
  match op with
  | OpOr =>
      match ls, rs with
      | _ :: _, [] => [insert_clean (he, c)]
      | [], _ :: _ => [insert_clean (he, c * -1)]
      | _, _ => []
      end
  | OpAnd =>
      if Nat.eqb (length ls) 2 && negb (Nat.eqb (length rs) 2) then [insert_clean (he, c)]
      else if Nat.eqb (length rs) 2 && negb (Nat.eqb (length ls) 2) then [insert_clean (he, c * -1)]
      else []
  | OpXor =>
      if Nat.eqb (length ls) 1 && negb (Nat.eqb (length rs) 1) then [insert_clean (he, c)]
      else if Nat.eqb (length rs) 1 && negb (Nat.eqb (length ls) 1) then [insert_clean (he, c * -1)]
      else []
  | OpNot =>
      (match ls with [k] => if k =? 0 then [insert_clean (he, c)] else [] | _ => [] end) ++
      (match rs with [k] => if k =? 0 then [insert_clean (he, c * -1)] else [] | _ => [] end)
  end.
(* execute, 2606-2638, and insert, 2644-2652 *)
Definition with_id (id : Z) (e : pedge) : vprop := (fst e, (id, snd e)).
Definition boolean_exec (op : bool_op) (a b : list pedge) : outcome (list pedge) :=
  let pmd := map (with_id 0) a ++ map (with_id 1) b in
  match pmd with
  | [] => Ok []
  | _ =>
      try pieces <- validate_props pmd;
      try data <- vd_sort pieces;
      try out <- scan data;
      Ok (flat_map (bool_out op) out)
  end.
