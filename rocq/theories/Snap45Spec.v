(* Sets of 45-degree polygons whose diagonals meet on the grid. *)
From Verif Require Import Base Units Scan90Spec Poly90Spec ArbSpec Ins45Spec.

Definition same_parity (p : point) : Prop := Z.even (px p) = Z.even (py p).
(* where a diagonal edge begins or ends the coordinates are both even or both odd *)
Definition even_diagonals (l : list v45) : Prop := Forall (fun v => v_down v <> 0 \/ v_up v <> 0 -> same_parity (v_pt v)) l.
(* a vertex with a diagonal and a vertical edge has no other edges *)
Definition simple_vertex (v : v45) : Prop := v_vert v <> 0 -> v_down v <> 0 \/ v_up v <> 0 -> v_flat v = 0 /\ (v_down v = 0 \/ v_up v = 0).
Definition same_counts (v w : v45) : Prop := v_down v = v_down w /\ v_flat v = v_flat w /\ v_up v = v_up w /\ v_vert v = v_vert w.
