(* Specification of property merging, independent of the sweep.

   Every input is a polygon set together with a property (an integer: the code
   only compares properties with < and ==). Several inputs may carry the same
   property; their winding counts add up. *)
From Verif Require Import Base Scan90Spec Set90Spec Set90Model.

(* the winding count of the cell (x,y) that the inputs give to the property p *)
Fixpoint prop_count (ins : list (pset * Z)) (p x y : Z) : Z :=
  match ins with
  | [] => 0
  | (s, q) :: ins' => (if q =? p then ps_count s x y else 0) + prop_count ins' p x y
  end.

(* the cell carries exactly the properties in the list S *)
Definition carries (ins : list (pset * Z)) (S : list Z) (x y : Z) : Prop :=
  forall p, In p S <-> 0 < prop_count ins p x y.

(* a std::set<property_type> (or a std::vector sorted without repetitions) *)
Definition prop_set (S : list Z) : Prop := StronglySorted Z.lt S.

(* The result: a map from property sets to polygon sets *)
Definition pm_result : Type := list (list Z * pset).
Fixpoint set_eqb (a b : list Z) : bool :=
  match a, b with
  | [], [] => true
  | x :: a', y :: b' => (x =? y) && set_eqb a' b'
  | _, _ => false
  end.
Fixpoint res_find (S : list Z) (r : pm_result) : option pset :=
  match r with
  | [] => None
  | (S', s) :: r' => if set_eqb S' S then Some s else res_find S r'
  end.
(* the region stored under S: empty if there is no such key *)
Definition res_covers (r : pm_result) (S : list Z) (x y : Z) : Prop :=
  match res_find S r with None => False | Some s => ps_covers s x y end.
