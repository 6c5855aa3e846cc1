(* What the statements about comparison and extents of sets of 45-degree polygons say of the
   vertices. *)
From Verif Require Import Base Units Ins45Spec.

(* the coordinates are ints *)
Definition int45 (l : list v45) : Prop := Forall (fun v => is_int (px (v_pt v)) /\ is_int (py (v_pt v))) l.
(* the counts at the vertex do not all cancel *)
Definition has_counts (v : v45) : Prop := v_down v <> 0 \/ v_flat v <> 0 \/ v_up v <> 0.
