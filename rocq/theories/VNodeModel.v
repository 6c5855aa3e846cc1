(* node_comparison_predicate of detail/voronoi_predicates.hpp and the search in the
   beach line, in exact arithmetic *)
From Coq Require Import Reals ZArith List Bool.
From Verif Require Import Base Units Outcome Scan90Spec Set90Spec GeoSpec Poly90Model VorSpec VorModel VDModel RobustSpec RobustModel
  VCircleSpec VCircleModel VArcModel.
Import ListNotations.
Open Scope Z_scope.

(* get_comparison_site, 426-431 *)
Definition cmp_site (n : node) : sev := if (e_sorted (n_right n) <? e_sorted (n_left n))%nat then n_left n else n_right n.
(* get_comparison_point, 433-436 *)
Definition cmp_point (s : sev) : point := if point_before (e_p0 s) (e_p1 s) then e_p0 s else e_p1 s.
(* get_comparison_y, 439-454 *)
Definition cmp_y (n : node) (is_new_node : bool) : Z * Z :=
  if (e_sorted (n_left n) =? e_sorted (n_right n))%nat then (sy0 (n_left n), 0)
  else if (e_sorted (n_right n) <? e_sorted (n_left n))%nat then
    if negb is_new_node && sev_segment (n_left n) && sev_vertical (n_left n) then (sy0 (n_left n), 1)
    else (sy1 (n_left n), 1)
  else (sy0 (n_right n), -1).
(* operator(), 389-422; the comparison of pairs is lexicographic *)
Definition pair_less (a b : Z * Z) : bool := (fst a <? fst b) || (fst a =? fst b) && (snd a <? snd b).
Definition node_less (n1 n2 : node) : option bool :=
  let s1 := cmp_site n1 in
  let s2 := cmp_site n2 in
  let p1 := cmp_point s1 in
  let p2 := cmp_point s2 in
  if px p1 <? px p2 then distance_predicate (n_left n1) (n_right n1) p2
  else if px p1 >? px p2 then (do b <- distance_predicate (n_left n2) (n_right n2) p1; Some (negb b))
  else if (e_sorted s1 =? e_sorted s2)%nat then Some (pair_less (cmp_y n1 true) (cmp_y n2 true))
  else if (e_sorted s1 <? e_sorted s2)%nat then
    let y1 := cmp_y n1 false in
    let y2 := cmp_y n2 true in
    Some (if negb (fst y1 =? fst y2) then fst y1 <? fst y2
      else if negb (sev_segment s1) then snd y1 <? 0 else false)
  else
    let y1 := cmp_y n1 true in
    let y2 := cmp_y n2 false in
    Some (if negb (fst y1 =? fst y2) then fst y1 <? fst y2
      else if negb (sev_segment s2) then 0 <? snd y2 else true).

(* beach_line_node_key(new_site), detail/voronoi_structures.hpp:371-373 *)
Definition new_key (s : sev) : node := mk_node 0 s s None None.
(* the three bisectors of insert_new_arc, voronoi_builder.hpp:439-459, as keys; the
   second one for segments only *)
Definition new_left_key (arc1 s : sev) : node := mk_node 0 arc1 s None None.
Definition new_mid_key (s : sev) : node := mk_node 0 s (sev_inverse s) None None.
Definition new_right_key (s arc2 : sev) : node := mk_node 0 (if sev_segment s then sev_inverse s else s) arc2 None None.

(* beach_line_ is a std::map: some binary search tree. lower_bound goes down from
   the root, to the right if the node is less than the key, otherwise to the left,
   and returns the last node where it went left (voronoi_builder.hpp:287). *)
Inductive btree : Type := BLeaf | BNode (l : btree) (n : node) (r : btree).
Fixpoint in_order (t : btree) : list node :=
  match t with BLeaf => [] | BNode l n r => in_order l ++ n :: in_order r end.
Fixpoint lower_bound (t : btree) (k : node) (found : option node) : option (option node) :=
  match t with
  | BLeaf => Some found
  | BNode l n r => do b <- node_less n k; if b then lower_bound r k found else lower_bound l k (Some n)
  end.
