(* Model of applyBoolean45OpOnVectors and applyUnary45OpOnVectors,
   polygon_45_set_data.hpp:1239-1455, for int coordinates. The sweep itself is in
   Scan45Model.v.

   The code calls the sweep once for each column of the input and appends its sorted output
   to the result; here the sweep runs over all columns and its output is put in order at the
   end. That is the same: the output of a call lies to the right of the output of the calls
   before it. The sentinel UnitMax is left out. *)
From Verif Require Import Base Units Scan90Spec Poly90Spec Poly90Model ArbSpec Ins45Spec Ins45Model Scan45Model Bool45Spec.

(* point_data operator<: by x, then by y *)
Definition pt_ltb (p q : point) : bool := (px p <? px q) || (px p =? px q) && (py p <? py q).

(* applyLogic<op>(Count2), boolean_op_45.hpp:369-388 *)
Definition logic2 (op : Z) (c : cnt2) : bool :=
  if op =? 0 then (0 <? fst c) || (0 <? snd c)
  else if op =? 1 then (0 <? fst c) && (0 <? snd c)
  else if op =? 2 then (0 <? fst c) && negb (0 <? snd c)
  else if op =? 3 then xorb (0 <? fst c) (0 <? snd c)
  else false.
(* applyLogic<op>(Count1), 405-422: the first of the two counts *)
Definition logic1 (op : Z) (c : cnt2) : bool :=
  if op =? 0 then 0 <? fst c
  else if op =? 1 then 1 <? fst c
  else if op =? 3 then negb (Z.rem (fst c) 2 =? 0)
  else false.

(* the events, 1306-1347 *)
Definition ev_right (w : v45) : event := mk_ev (v_pt w) (0, v_down w) (0, v_flat w) (0, v_up w) (0, v_vert w).
Definition ev_left (v : v45) : event := mk_ev (v_pt v) (v_down v, 0) (v_flat v, 0) (v_up v, 0) (v_vert v, 0).
Definition ev_both (v w : v45) : event :=
  mk_ev (v_pt w) (v_down v, v_down w) (v_flat v, v_flat w) (v_up v, v_up w) (v_vert v, v_vert w).
Fixpoint merge45 (a : list v45) : list v45 -> list event :=
  fix go (b : list v45) : list event :=
    match a, b with
    | [], [] => []
    | [], w :: b' => ev_right w :: go b'
    | v :: a', [] => ev_left v :: merge45 a' []
    | v :: a', w :: b' =>
        if pt_ltb (v_pt w) (v_pt v) then ev_right w :: go b'
        else if pt_ltb (v_pt v) (v_pt w) then ev_left v :: merge45 a' b
        else ev_both v w :: merge45 a' b'
    end.

(* the output put in order, the counts at a point added up, and how many there were:
   1269-1287. Vertex45Count += Vertex45 is count[rise + 1] += count *)
Definition vertex_of (q : out45) : v45 := add_count (fst (snd q) + 1) (snd (snd q)) (mk_v45 (fst q) 0 0 0 0).
Fixpoint out_add (q : out45) (l : list (v45 * nat)) : list (v45 * nat) :=
  match l with
  | [] => [(vertex_of q, 1%nat)]
  | (v, n) :: l' =>
      if pt_eqb (v_pt v) (fst q) then (add_count (fst (snd q) + 1) (snd (snd q)) v, S n) :: l'
      else if pt_ltb (fst q) (v_pt v) then (vertex_of q, 1%nat) :: l
      else (v, n) :: out_add q l'
  end.
(* a vertex is dropped if exactly two counts were added up and they cancel, 1281-1283 *)
Definition no_counts (v : v45) : bool := (v_down v =? 0) && (v_flat v =? 0) && (v_up v =? 0) && (v_vert v =? 0).
Definition compact45 (o : list out45) : list v45 :=
  map fst (filter (fun p => negb ((snd p =? 2)%nat && no_counts (fst p))) (fold_right out_add [] o)).
(* result_data and the flag for is_manhattan_ *)
Definition finish45 (o : list out45) : list v45 * bool := let r := compact45 o in (r, forallb (fun v => negb (is_45 v)) r).

(* the vectors are sorted by their points: sort(), called before *)
Definition bool45 (op : Z) (a b : list v45) : res (list v45 * bool) :=
  run o <- scan_all (logic2 op) (merge45 a b); Fine (finish45 o).
Definition unary45 (op : Z) (a : list v45) : res (list v45 * bool) :=
  run o <- scan_all (logic1 op) (map ev_left a); Fine (finish45 o).
(* the template arguments of applyAdaptiveBoolean_ and applyAdaptiveUnary_: operator&= 697-705, operator-= 714-722,
   operator^= 723-731; clean 1221, self_intersect 319-324, self_xor 327-332. No operator of the set uses 0 with two
   operands (|= inserts) *)
Definition op_code (o : op45) : Z :=
  match o with Or45 => 0 | And45 => 1 | Not45 => 2 | Xor45 => 3 end.
Definition self_code (o : self45) : Z :=
  match o with SelfOr45 => 0 | SelfAnd45 => 1 | SelfXor45 => 3 end.
(* scale_up_vertex_45_compact_range, 451-456; scale_up of the set, 1180-1183 *)
Definition scale45 (k : Z) (v : v45) : v45 :=
  mk_v45 (mk_pt (px (v_pt v) * k) (py (v_pt v) * k)) (v_down v) (v_flat v) (v_up v) (v_vert v).
(* snap_vertex_45, 664-681; snap() does this to every vertex in place, 683-689, and does not
   mark the set as unsorted *)
Definition move45 (v : v45) (dx dy : Z) : v45 :=
  mk_v45 (mk_pt (px (v_pt v) + dx) (py (v_pt v) + dy)) (v_down v) (v_flat v) (v_up v) (v_vert v).
Definition snap45 (v : v45) : v45 :=
  let plus45 := negb (v_up v =? 0) in let minus45 := negb (v_down v =? 0) in
  if plus45 || minus45 then
    if negb (Z.rem (Z.abs (px (v_pt v))) 2 =? Z.rem (Z.abs (py (v_pt v))) 2) then
      if negb (v_flat v =? 0) || plus45 && minus45 then move45 v 1 0
      else move45 v 0 (if plus45 then -1 else 1)
    else v
  else v.
