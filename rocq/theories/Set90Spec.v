(* Specification of Manhattan polygon sets at the level of the API: an abstract
   machine whose variables hold winding functions, and one whose variables hold
   plain regions. Nothing here mentions scan lines, sorting, or dirty flags.

   The cell (x,y) is the half-open unit square [x,x+1) x [y,y+1). *)
From Verif Require Import Base Scan90Spec IsoSpec.
From Verif Require Export Units Poly90Spec.

(* A rectangle [xl,xh] x [yl,yh] *)
Record rect : Type := mk_rect { xl : Z; xh : Z; yl : Z; yh : Z }.
Definition rect_ok (r : rect) : Prop := xl r <= xh r /\ yl r <= yh r.
(* does the rectangle cover the cell (x,y)? *)
Definition in_rect (r : rect) (x y : Z) : bool :=
  (xl r <=? x) && (x <? xh r) && (yl r <=? y) && (y <? yh r).

(* a vertex list read with a scan orientation: with Vertical the major
   coordinate is x, with Horizontal it is y (polygon_90_set_data.hpp:335-338) *)
Definition wind (o : orient) (V : list vertex) (x y : Z) : Z :=
  match o with Vertical => cnt V x y | Horizontal => cnt V y x end.

(* An orthogonal transformation with translation: (x,y) |-> M (x - px, y - py),
   M given by the directions the axes are mapped to. *)
Record isometry : Type := mk_iso { iso_atr : Z; iso_px : Z; iso_py : Z }.
(* the cell c is mapped to the cell d: the centres, in half units, are mapped *)
Definition maps_cell (t : isometry) (c d : Z * Z) : Prop :=
  combine_dirs (fst (atr_dirs (iso_atr t))) (snd (atr_dirs (iso_atr t)))
    (2 * fst c + 1 - 2 * iso_px t) (2 * snd c + 1 - 2 * iso_py t)
  = (2 * fst d + 1, 2 * snd d + 1).

(* r is the tightest rectangle around the cells of P *)
Definition bounding_box (P : Z -> Z -> Prop) (r : rect) : Prop :=
  (forall x y, P x y -> in_rect r x y = true) /\
  (exists y, P (xl r) y) /\ (exists y, P (xh r - 1) y) /\
  (exists x, P x (yl r)) /\ (exists x, P x (yh r - 1)).

(* The boolean operators of the API *)
Inductive bop : Type := OpOr | OpAnd | OpXor | OpSub.
Definition bop_fun (o : bop) (a b : bool) : bool :=
  match o with OpOr => a || b | OpAnd => a && b | OpXor => xorb a b | OpSub => a && negb b end.

(* Operations on numbered variables that hold polygon sets *)
Inductive op : Type :=
| ONew (i : nat) (o : orient)                   (* i = polygon_90_set_data(o) *)
| OCopy (i j : nat)                             (* i = j *)
| OClear (i : nat)                              (* i.clear() *)
| OInsertRect (i : nat) (r : rect) (hole : bool)(* i.insert(r, hole) *)
| OInsertPoly (i : nat) (p : poly90) (hole : bool) (* i.insert(p, hole) *)
| OInsertSet (i j : nat)                        (* i.insert(j), i |= j, i += j *)
| OBin (k : nat) (f : bop) (i j : nat)          (* k = i f j *)
| OBinAssign (i : nat) (f : bop) (j : nat)      (* i f= j *)
| OMove (i : nat) (dx dy : Z)                   (* i.move(dx, dy) *)
| OTransform (i : nat) (t : isometry)           (* i.transform(t) *)
| OScaleUp (i : nat) (k : Z)                    (* i.scale_up(k) *)
| OSelfXor (i : nat)                            (* i.self_xor() *)
| OSelfIntersect (i : nat)                      (* i.self_intersect() *)
| OClean (i : nat)                              (* i.clean() *)
| QEmpty (i : nat)                              (* i.empty() *)
| QEq (i j : nat)                               (* i == j *)
| QEquiv (i j : nat)                            (* equivalence(i, j) *)
| QExtents (i : nat).                           (* i.extents(r) *)

Inductive answer : Type := ABool (b : bool) | ARect (r : option rect).

(* arguments the API accepts: integer coordinates, ordered rectangles, factors
   that are positive ints, polygons that are properly closed, one of the eight axis transformations *)
Definition op_ok (o : op) : Prop :=
  match o with
  | OInsertRect _ r _ =>
      rect_ok r /\ is_int (xl r) /\ is_int (xh r) /\ is_int (yl r) /\ is_int (yh r)
  | OInsertPoly _ p _ => poly_ok p
  | OScaleUp _ k => 0 < k <= INT_MAX
  | OTransform _ t => 0 <= iso_atr t < 8
  | _ => True
  end.

(* ---------- abstract machine over winding functions ---------- *)
Definition winding : Type := Z -> Z -> Z.
Definition astate : Type := nat -> orient * winding.
Definition aset (st : astate) (i : nat) (v : orient * winding) : astate :=
  fun j => if Nat.eqb j i then v else st j.
Definition positive_part (w : winding) : winding := fun x y => b2z (w x y >? 0).
Definition covered (w : winding) (x y : Z) : Prop := 0 < w x y.

(* i is observed by a query that normalises it *)
Definition anorm (st : astate) (i : nat) : astate :=
  aset st i (fst (st i), positive_part (snd (st i))).

Definition astart : astate := fun _ => (Horizontal, fun _ _ => 0).

(* the effect of an operation on the winding functions: [aeffect st o st'] *)
Definition aeffect (st : astate) (o : op) (st' : astate) : Prop :=
  match o with
  | ONew i o => st' = aset st i (o, fun _ _ => 0)
  | OCopy i j => st' = aset st i (st j)
  | OClear i => st' = aset st i (fst (st i), fun _ _ => 0)
  | OInsertRect i r hole =>
      st' = aset st i (fst (st i), fun x y =>
        snd (st i) x y + (if in_rect r x y then (if hole then -1 else 1) else 0))
  | OInsertPoly i p hole =>
      st' = aset st i (fst (st i), fun x y =>
        snd (st i) x y + (if hole then -1 else 1) * poly_count p x y)
  | OInsertSet i j =>
      st' = if Nat.eqb i j then st
            else aset st i (fst (st i), fun x y => snd (st i) x y + snd (st j) x y)
  | OBin k f i j =>
      st' = aset st k (fst (st i), fun x y =>
        b2z (bop_fun f (snd (st i) x y >? 0) (snd (st j) x y >? 0)))
  | OBinAssign i f j =>
      st' = aset st i (fst (st i), fun x y =>
        b2z (bop_fun f (snd (st i) x y >? 0) (snd (st j) x y >? 0)))
  | OMove i dx dy => st' = aset st i (fst (st i), fun x y => snd (st i) (x - dx) (y - dy))
  | OTransform i t =>
      exists w, st' = aset st i (fst (st i), w) /\
        forall c d, maps_cell t c d -> w (fst d) (snd d) = snd (st i) (fst c) (snd c)
  | OScaleUp i k => st' = aset st i (fst (st i), fun x y => snd (st i) (x / k) (y / k))
  | OSelfXor i =>
      st' = aset st i (fst (st i), fun x y =>
        b2z ((snd (st i) x y >? 0) && Z.odd (snd (st i) x y)))
  | OSelfIntersect i =>
      st' = aset st i (fst (st i), fun x y => b2z (snd (st i) x y >? 1)) \/
      (* or nothing happens: only if all counts are 0 or 1 *)
      (st' = st /\ forall x y, snd (st i) x y = 0 \/ snd (st i) x y = 1)
  | OClean i => st' = anorm st i
  | QEmpty i => st' = anorm st i
  | QEq i j =>
      st' = if orient_eqb (fst (st i)) (fst (st j)) then anorm (anorm st i) j else st
  | QEquiv i j => st' = st
  | QExtents i => st' = anorm st i
  end.

(* the answers of an operation *)
Definition aanswers (st : astate) (o : op) (out : list answer) : Prop :=
  match o with
  | QEmpty i =>
      exists b, out = [ABool b] /\ (b = true <-> forall x y, ~ covered (snd (st i)) x y)
  | QEq i j =>
      exists b, out = [ABool b] /\
        (b = true <-> fst (st i) = fst (st j) /\
           forall x y, covered (snd (st i)) x y <-> covered (snd (st j)) x y)
  | QEquiv i j =>
      exists b, out = [ABool b] /\
        (b = true <-> forall x y, covered (snd (st i)) x y <-> covered (snd (st j)) x y)
  | QExtents i =>
      (out = [ARect None] /\ forall x y, ~ covered (snd (st i)) x y) \/
      (exists r, out = [ARect (Some r)] /\ bounding_box (covered (snd (st i))) r)
  | _ => out = []
  end.

(* histories; states are compared variable by variable and cell by cell *)
Definition aeq (s t : astate) : Prop :=
  forall i, fst (s i) = fst (t i) /\ forall x y, snd (s i) x y = snd (t i) x y.

Inductive aruns : astate -> list op -> astate -> list answer -> Prop :=
| aruns_nil : forall s t, aeq s t -> aruns s [] t []
| aruns_cons : forall s o ops s1 t out outs,
    aeffect s o s1 -> aanswers s o out -> aruns s1 ops t outs ->
    aruns s (o :: ops) t (out ++ outs).

(* ---------- abstract machine over plain regions (no holes) ---------- *)
Definition rstate : Type := nat -> orient * (Z -> Z -> Prop).
Definition rset (st : rstate) (i : nat) (v : orient * (Z -> Z -> Prop)) : rstate :=
  fun j => if Nat.eqb j i then v else st j.
Definition rstart : rstate := fun _ => (Horizontal, fun _ _ => False).

Definition bop_prop (f : bop) (A B : Prop) : Prop :=
  match f with
  | OpOr => A \/ B | OpAnd => A /\ B | OpXor => (A /\ ~ B) \/ (~ A /\ B) | OpSub => A /\ ~ B
  end.

(* the operations of the hole-free fragment: no insertion as hole, no self_xor
   and no self_intersect; no cell of an inserted polygon has a negative count *)
Definition hole_free (o : op) : Prop :=
  match o with
  | OInsertRect _ _ hole => hole = false
  | OInsertPoly _ p hole => hole = false /\ forall x y, 0 <= poly_count p x y
  | OSelfXor _ | OSelfIntersect _ => False
  | _ => True
  end.

(* a query leaves every region unchanged *)
Definition reffect (st : rstate) (o : op) (st' : rstate) : Prop :=
  match o with
  | ONew i o => st' = rset st i (o, fun _ _ => False)
  | OCopy i j => st' = rset st i (st j)
  | OClear i => st' = rset st i (fst (st i), fun _ _ => False)
  | OInsertRect i r _ =>
      st' = rset st i (fst (st i), fun x y => snd (st i) x y \/ in_rect r x y = true)
  | OInsertPoly i p _ =>
      st' = rset st i (fst (st i), fun x y => snd (st i) x y \/ 0 < poly_count p x y)
  | OInsertSet i j => st' = rset st i (fst (st i), fun x y => snd (st i) x y \/ snd (st j) x y)
  | OBin k f i j =>
      st' = rset st k (fst (st i), fun x y => bop_prop f (snd (st i) x y) (snd (st j) x y))
  | OBinAssign i f j =>
      st' = rset st i (fst (st i), fun x y => bop_prop f (snd (st i) x y) (snd (st j) x y))
  | OMove i dx dy => st' = rset st i (fst (st i), fun x y => snd (st i) (x - dx) (y - dy))
  | OTransform i t =>
      st' = rset st i (fst (st i), fun x y => exists c, maps_cell t c (x, y) /\ snd (st i) (fst c) (snd c))
  | OScaleUp i k => st' = rset st i (fst (st i), fun x y => snd (st i) (x / k) (y / k))
  | OSelfXor i => False
  | OSelfIntersect i => False
  | OClean _ | QEmpty _ | QEq _ _ | QEquiv _ _ | QExtents _ => st' = st
  end.

Definition ranswers (st : rstate) (o : op) (out : list answer) : Prop :=
  match o with
  | QEmpty i => exists b, out = [ABool b] /\ (b = true <-> forall x y, ~ snd (st i) x y)
  | QEq i j =>
      exists b, out = [ABool b] /\
        (b = true <-> fst (st i) = fst (st j) /\ forall x y, snd (st i) x y <-> snd (st j) x y)
  | QEquiv i j =>
      exists b, out = [ABool b] /\ (b = true <-> forall x y, snd (st i) x y <-> snd (st j) x y)
  | QExtents i =>
      (out = [ARect None] /\ forall x y, ~ snd (st i) x y) \/
      (exists r, out = [ARect (Some r)] /\ bounding_box (snd (st i)) r)
  | _ => out = []
  end.

Definition req (s t : rstate) : Prop :=
  forall i, fst (s i) = fst (t i) /\ forall x y, snd (s i) x y <-> snd (t i) x y.

Inductive rruns : rstate -> list op -> rstate -> list answer -> Prop :=
| rruns_nil : forall s t, req s t -> rruns s [] t []
| rruns_cons : forall s o ops s1 t out outs,
    reffect s o s1 -> ranswers s o out -> rruns s1 ops t outs ->
    rruns s (o :: ops) t (out ++ outs).

(* ---------- boolean expressions over the variables ---------- *)
Inductive bexp : Type := BVar (i : nat) | BBin (f : bop) (e1 e2 : bexp).
(* value of an expression for given truth values of the variables *)
Fixpoint bexp_val (rho : nat -> bool) (e : bexp) : bool :=
  match e with
  | BVar i => rho i
  | BBin f e1 e2 => bop_fun f (bexp_val rho e1) (bexp_val rho e2)
  end.
(* the scan orientation of the result is that of the leftmost variable *)
Fixpoint bexp_left (e : bexp) : nat :=
  match e with BVar i => i | BBin _ e1 _ => bexp_left e1 end.
(* two expressions denote the same boolean function *)
Definition bexp_equiv (e1 e2 : bexp) : Prop := forall rho, bexp_val rho e1 = bexp_val rho e2.

(* const calls that only inspect (or normalise) a set *)
Definition is_query (o : op) : Prop :=
  match o with OClean _ | QEmpty _ | QEq _ _ | QEquiv _ _ | QExtents _ => True | _ => False end.


(* r is a/k rounded to the nearest integer, halves upwards *)
Definition rounds_to (a k r : Z) : Prop := 2 * k * r <= 2 * a + k < 2 * k * (r + 1).
