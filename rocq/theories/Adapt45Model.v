(* Model of the operations of polygon_45_set_data that choose between the computation for
   rectilinear sets and the sweep for 45-degree sets (applyAdaptiveBoolean_ 1534-1575 and
   applyAdaptiveUnary_ 1670-1702 of polygon_45_set_data.hpp), of operator== (162-166), empty
   (190) and extents (637-659), for int coordinates. The flags unsorted_ and dirty_ are left
   out: the sets are as after an insertion, which sets both. The vertices in order, ss and st
   below, are an argument, because sort() may put vertices with the same point in any order.
   error_data_ is left out. If the sweep throws, the code tries again with coordinates of a
   wider type, that are doubled (Bool45Model.scale45); here the outcome is Throw. *)
From Verif Require Import Base Units Scan90Spec Poly90Spec BoolOpModel Set90Spec Set90Model ArbSpec Ins45Spec Ins45Model Scan45Model Bool45Spec Bool45Model.

(* l90sd and r90sd: the vertices inserted one by one, and sorted; 1541-1552, 1674-1679 *)
Definition set90_of (s : set45) : pset :=
  ps_sort (fold_left (fun t v => ps_insert_vertex t v false Vertical) (manhattan_data s) (ps_new Vertical)).
(* result.insert(output), result.is_manhattan_ = true; 1570-1572, 1693-1695 *)
Definition from90 (d : list vertex) : set45 := mk_set45 (s_data (insert_set90 false Vertical d empty45)) true.
(* 1557-1569 *)
Definition functor90 (o : op45) : Z -> Z -> bool :=
  match o with Or45 => BinaryOr | And45 => BinaryAnd | Not45 => BinaryNot | Xor45 => BinaryXor end.
(* applyAdaptiveBoolean_ *)
Definition op_set45 (o : op45) (s t : set45) (ss st : list v45) : res set45 :=
  if s_manhattan s && s_manhattan t then
    match applyBooleanBinaryOp (functor90 o) INT_MAX (ps_data (set90_of s)) (ps_data (set90_of t)) with
    | Some out => Fine (from90 out)
    | None => Bad
    end
  else run q <- bool45 (op_code o) ss st; Fine (mk_set45 (fst q) (snd q)).
(* 1684-1690 *)
Definition unary90 (o : self45) (s : pset) : option pset :=
  match o with SelfOr45 => ps_clean s | SelfAnd45 => ps_self_intersect s | SelfXor45 => ps_self_xor s end.
(* applyAdaptiveUnary_ *)
Definition self_set45 (o : self45) (s : set45) (ss : list v45) : res set45 :=
  if s_manhattan s then
    match unary90 o (set90_of s) with
    | Some t => Fine (from90 (ps_data t))
    | None => Bad
    end
  else run q <- unary45 (self_code o) ss; Fine (mk_set45 (fst q) (snd q)).
(* operator==: both are cleaned, then the vectors are compared, Vertex45Compact::operator==
   506-507 of polygon_45_formation.hpp *)
Definition v45_eqb (v w : v45) : bool :=
  pt_eqb (v_pt v) (v_pt w) && ((v_down v =? v_down w) && (v_flat v =? v_flat w) && (v_up v =? v_up w) && (v_vert v =? v_vert w)).
Fixpoint data_eqb (a b : list v45) : bool :=
  match a, b with
  | [], [] => true
  | v :: a', w :: b' => v45_eqb v w && data_eqb a' b'
  | _, _ => false
  end.
Definition eq_set45 (s t : set45) (ss st : list v45) : res bool :=
  run a <- self_set45 SelfOr45 s ss; run b <- self_set45 SelfOr45 t st; Fine (data_eqb (s_data a) (s_data b)).
(* empty: no clean() *)
Definition empty_set45 (s : set45) : bool := match s_data s with [] => true | _ => false end.
(* extents after clean(), 642-657; None: false is returned *)
Definition extents_data (l : list v45) : option rect :=
  match l with
  | [] => None
  | _ => Some (fold_left (fun r v =>
      let p := v_pt v in
      let xh' := if px p >? xh r then px p else xh r in
      let xl' := if px p <? xl r then px p else xl r in
      let yh' := if py p >? yh r then py p else yh r in
      let yl' := if py p <? yl r then py p else yl r in
      mk_rect xl' xh' yl' yh') l (mk_rect INT_MAX INT_MIN INT_MAX INT_MIN))
  end.
Definition extents_set45 (s : set45) (ss : list v45) : res (option rect) :=
  run a <- self_set45 SelfOr45 s ss; Fine (extents_data (s_data a)).
