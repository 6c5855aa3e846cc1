(* Model of property_merge, detail/scan_arbitrary.hpp, for int coordinates and int
   properties: the plane is divided by the sets of properties that cover it. *)
From Verif Require Import Base Units Outcome Scan90Spec Poly90Spec Poly90Model Set90Spec Set90Model GeoSpec IvlModel RectModel SegModel PolySpec PolyModel ScanBaseModel SnapModel ArbSpec ArbModel ArbSetModel.

(* create_vertex, 1666-1691; the distance, point_concept.hpp:284-291, is a difference of
   ints *)
Definition pm_vertex (ccw hole : bool) (k : Z) (a b : point) : outcome (list vprop) :=
  if pt_eqb a b then Ok []
  else
    let m := 1 in
    let m := if ccw then m else -1 in
    let m := if hole then m * -1 else m in
    let '(s, m) := if pt_less a b then (mk_seg b a, m * -1) else (mk_seg a b, m) in
    try d <- chk (px b - px a);
    Ok [(s, (k, m * (if Z.abs d =? 0 then -1 else 1)))].
(* insert of a polygon, 1598-1643. From the third point on, and the two edges at the
   first point, 1619-1642 *)
Fixpoint pm_rest (ccw hole : bool) (k : Z) (first second prev : point) (l : list point) : outcome (list vprop) :=
  match l with
  | [] =>
      try a <- (if pt_eqb prev first then Ok [] else pm_vertex ccw hole k prev first);
      try b <- pm_vertex ccw hole k first second;
      Ok (a ++ b)
  | q :: l' =>
      if pt_eqb prev q then pm_rest ccw hole k first second prev l'
      else
        try a <- pm_vertex ccw hole k prev q;
        try b <- pm_rest ccw hole k first second q l';
        Ok (a ++ b)
  end.
(* 1613-1618: the first point that differs from the first one *)
Fixpoint pm_second (ccw hole : bool) (k : Z) (first : point) (l : list point) : outcome (list vprop) :=
  match l with
  | [] => Ok []
  | q :: l' => if pt_eqb first q then pm_second ccw hole k first l' else pm_rest ccw hole k first q q l'
  end.
Definition pm_ring (w : Z) (hole : bool) (k : Z) (pts : list point) : outcome (list vprop) :=
  try ccw <- points_ccw_d w pts;
  match pts with [] => Ok [] | p :: l => pm_second ccw hole k p l end.
Fixpoint pm_rings (w : Z) (hole : bool) (k : Z) (hs : list (list point)) : outcome (list vprop) :=
  match hs with
  | [] => Ok []
  | h :: hs' => try a <- pm_ring w hole k h; try b <- pm_rings w hole k hs'; Ok (a ++ b)
  end.
(* with holes, 1645-1654 *)
Definition pm_insert (w : Z) (hole : bool) (k : Z) (g : gpoly) : outcome (list vprop) :=
  try a <- pm_ring w hole k (g_outer g);
  try b <- pm_rings w (negb hole) k (g_holes g);
  Ok (a ++ b).
(* the calls of insert: polygon, property, is_hole *)
Definition pm_call : Type := (gpoly * (Z * bool))%type.
Fixpoint pm_inserts (w : Z) (cs : list pm_call) : outcome (list vprop) :=
  match cs with
  | [] => Ok []
  | (g, (k, hole)) :: cs' => try a <- pm_insert w hole k g; try b <- pm_inserts w cs'; Ok (a ++ b)
  end.

(* the result, a map from sets of properties to polygon sets. The order of the keys is
   left out *)
Definition rmap : Type := list (list Z * list pedge).
Fixpoint rm_put (K : list Z) (e : pedge) (m : rmap) : rmap :=
  match m with
  | [] => [(K, [e])]
  | (K', r) :: m' => if zs_eqb K' K then (K', r ++ [e]) :: m' else (K', r) :: rm_put K e m'
  end.
(* merge_output_functor, 1472-1489 *)
Definition merge_out (m : rmap) (o : osides) : rmap :=
  let '(he, (ls, rs)) := o in
  let c := 1 in
  let c := if pt_less (s_high he) (s_low he) then c * -1 else c in
  let c := if sb_vertical he then c * -1 else c in
  let m := match ls with [] => m | _ => rm_put ls (insert_clean (he, c)) m end in
  let c := c * -1 in
  match rs with [] => m | _ => rm_put rs (insert_clean (he, c)) m end.
(* merge into an empty map, 1553-1565 *)
Definition pm_merge_all (pmd : list vprop) : outcome rmap :=
  match pmd with
  | [] => Ok []
  | _ =>
      try pieces <- validate_props pmd;
      try data <- vd_sort pieces;
      try out <- scan data;
      Ok (fold_left merge_out out [])
  end.
(* a property_merge with these calls of insert, and merge *)
Definition property_merge (w : Z) (cs : list pm_call) : outcome rmap :=
  try pmd <- pm_inserts w cs; pm_merge_all pmd.
