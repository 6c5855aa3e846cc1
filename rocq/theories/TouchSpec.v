(* Specification of connectivity extraction: when do two Manhattan regions touch?

   A region is a set of unit cells named by their lower left corner (Scan90Spec);
   as a closed set of the plane it contains a point (with rational coordinates)
   if one of its cells, taken with its whole boundary, contains it. *)
From Coq Require Import QArith.
From Verif Require Import Base.

Definition in_closed_cell (p : Q * Q) (x y : Z) : Prop :=
  (inject_Z x <= fst p <= inject_Z (x + 1))%Q /\ (inject_Z y <= snd p <= inject_Z (y + 1))%Q.
Definition in_closed (R : Z -> Z -> Prop) (p : Q * Q) : Prop :=
  exists x y, R x y /\ in_closed_cell p x y.
(* the two closed regions have a point in common *)
Definition share_point (R S : Z -> Z -> Prop) : Prop :=
  exists p, in_closed R p /\ in_closed S p.

(* graphs: a vector of sets of neighbours, indexed by node *)
Definition graph : Type := list (list Z).
Definition edge (g : graph) (a b : Z) : Prop :=
  0 <= a /\ exists s, nth_error g (Z.to_nat a) = Some s /\ In b s.

(* item number i of a list *)
Definition nthZ {A : Type} (l : list A) (i : Z) : option A := if i <? 0 then None else nth_error l (Z.to_nat i).
