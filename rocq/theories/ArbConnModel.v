(* Model of connectivity_extraction, polygon_set_data.hpp, and of
   arbitrary_connectivity_extraction, detail/scan_arbitrary.hpp, for int coordinates.

   A std::set of nodes is a sorted list, the std::map from points to sets a list sorted
   by the points. The graph is the list of the pairs (i, j) such that j was inserted
   into graph[i]; inserting a pair again changes nothing that the user sees. Node ids
   are fewer than 2^31. *)
From Verif Require Import Base Units Outcome Scan90Spec Poly90Spec Poly90Model Set90Spec Set90Model GeoSpec IvlModel RectModel SegModel PolyModel ScanBaseModel SnapModel ArbSpec ArbModel ArbSetModel.

Fixpoint zset_insert (k : Z) (l : list Z) : list Z :=
  match l with
  | [] => [k]
  | j :: l' => if k <? j then k :: l else if j <? k then j :: zset_insert k l' else l
  end.
Definition zset_add (ks : list Z) (l : list Z) : list Z := fold_left (fun s k => zset_insert k s) ks l.
Definition ymap : Type := list (point * list Z).
(* y_prop_map[p], and insertion into it *)
Fixpoint ym_add (p : point) (ks : list Z) (m : ymap) : ymap :=
  match m with
  | [] => [(p, zset_add ks [])]
  | (q, s) :: m' =>
      if pt_less p q then (p, zset_add ks []) :: m
      else if pt_less q p then (q, s) :: ym_add p ks m'
      else (q, zset_add ks s) :: m'
  end.
(* all pairs of a set, 2766-2777 *)
Fixpoint all_pairs (s : list Z) : list (Z * Z) :=
  match s with
  | [] => []
  | i :: s' => flat_map (fun j => [(i, j); (j, i)]) s' ++ all_pairs s'
  end.
(* process_previous_x, 2755-2780; acc are the entries before the iterator, the last one
   first *)
Fixpoint ce_process (x : Z) (acc : ymap) (m : ymap) (g : list (Z * Z)) : ymap * list (Z * Z) :=
  match m with
  | [] => (rev acc, g)
  | (p, s) :: m' =>
      if px p <? x then ce_process x [(p, s)] m' g
      else ce_process x ((p, s) :: acc) m' (g ++ all_pairs s)
  end.
(* connectivity_extraction_output_functor, 2782-2812: x, y_prop_map, graph *)
Definition ce_state : Type := (Z * (ymap * list (Z * Z)))%type.
Definition ce_out (st : ce_state) (o : osides) : ce_state :=
  let '(x, (m, g)) := st in
  let '(he, (ls, rs)) := o in
  let pt := s_low he in
  let '(m, g) := if negb (px pt =? x) then ce_process x [] m g else (m, g) in
  let m := ym_add pt (ls ++ rs) m in
  let m := ym_add (s_high he) (ls ++ rs) m in
  (px pt, (m, g)).
(* execute, 2829-2846; there is no test for an empty pmd *)
Definition ce_execute (pmd : list vprop) : outcome (list (Z * Z)) :=
  try pieces <- validate_props pmd;
  try data <- vd_sort pieces;
  try out <- scan data;
  let '(x, (m, g)) := fold_left ce_out out (INT_MAX, ([], [])) in
  Ok (snd (ce_process x [] m g)).
(* insert, polygon_set_data.hpp:956-960: the set is cleaned, its edges get the id of the
   node; populateTouchSetData, scan_arbitrary.hpp:2850-2857 *)
Fixpoint ce_inserts (id : Z) (sets : list (list pedge)) : outcome (list vprop) :=
  match sets with
  | [] => Ok []
  | a :: sets' =>
      try c <- set_clean a;
      try r <- ce_inserts (id + 1) sets';
      Ok (map (with_id id) c ++ r)
  end.
(* the graph of these nodes, polygon_set_data.hpp:969-975 *)
Definition connectivity (sets : list (list pedge)) : outcome (list (Z * Z)) :=
  try pmd <- ce_inserts 0 sets; ce_execute pmd.
