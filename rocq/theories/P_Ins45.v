(* Sets of 45-degree polygons: what insertion adds to a set. C77 *)
From Verif Require Import Base Units Outcome Scan90Spec Poly90Spec Poly90Vertices GeoSpec PolySpec PolyModel Set90Spec ArbSpec ArbOrder Ins45Spec Ins45Model Ins45Proofs Ins45Cor.
From Coq Require Import Reals Lra.

(* ---------- C77 ---------- *)
(* A polygon with holes all of whose edges are horizontal, vertical or diagonal is added
   (as a hole: subtracted) with the winding numbers of its rings, whatever their direction,
   and with repeated points. The vertices that were there stay. A set whose vertices are
   balanced and whose flag is right remains such a set. *)
Theorem C77_polygon : forall w hole g s s', insert_polygon45 w hole g s = Ok s' -> gpoly_45 g ->
  (forall x y, depth45 (s_data s') x y = depth45 (s_data s) x y + hole_sign hole * poly_r (g_outer g) (g_holes g) x y) /\
  (exists new, s_data s' = s_data s ++ new) /\
  (valid45 (s_data s) (s_manhattan s) -> valid45 (s_data s') (s_manhattan s')).
Proof. intros w hole g s s' H G. destruct (polygon45_ok w hole g s s' H G) as [[A B] C]. auto. Qed.
Print Assumptions C77_polygon.
(* Insertion is defined if the area fits into the mantissa of long double. *)
Theorem C77_defined : forall w B hole g s, 0 <= B ->
  (forall r, In r (rings g) -> Forall (pt_fits B) r /\ Z.of_nat (length r) * (8 * (B * B)) <= 2 ^ w) ->
  exists s', insert_polygon45 w hole g s = Ok s'.
Proof. exact polygon45_defined. Qed.
Print Assumptions C77_defined.
Theorem C77_rectangle : forall hole r s, rect_ok r ->
  (forall x y, depth45 (s_data (insert_rect45 hole r s)) x y = depth45 (s_data s) x y + hole_sign hole * (if in_rect_r r x y then 1 else 0)) /\
  (exists new, s_data (insert_rect45 hole r s) = s_data s ++ new) /\
  (valid45 (s_data s) (s_manhattan s) -> valid45 (s_data (insert_rect45 hole r s)) (s_manhattan (insert_rect45 hole r s))).
Proof. intros hole r s R. destruct (rect45_grows hole r s R) as [A B]. split; [intros x y; apply rect45_depth, R|auto]. Qed.
Print Assumptions C77_rectangle.
Theorem C77_set : forall hole t s,
  (forall x y, depth45 (s_data (insert_set45 hole t s)) x y = depth45 (s_data s) x y + hole_sign hole * depth45 (s_data t) x y) /\
  (exists new, s_data (insert_set45 hole t s) = s_data s ++ new) /\
  (valid45 (s_data t) (s_manhattan t) -> valid45 (s_data s) (s_manhattan s) -> valid45 (s_data (insert_set45 hole t s)) (s_manhattan (insert_set45 hole t s))).
Proof. intros hole t s. split; [intros x y; apply set45_depth|]. split; [eexists; reflexivity|]. intros T. apply (set45_grows hole t s T). Qed.
Print Assumptions C77_set.
(* A set of rectilinear polygons of either scan orientation that is not inserted as a hole.
   Its counts are given on unit squares. *)
Theorem C77_rectilinear_set : forall o t s,
  (forall x y, depth45 (s_data (insert_set90 false o t s)) (cell_mid x) (cell_mid y) = depth45 (s_data s) (cell_mid x) (cell_mid y) + wind o t x y) /\
  (exists new, s_data (insert_set90 false o t s) = s_data s ++ new) /\
  (valid45 (s_data s) (s_manhattan s) -> valid45 (s_data (insert_set90 false o t s)) (s_manhattan (insert_set90 false o t s))).
Proof. intros o t s. destruct (set90_grows o t s) as [A B]. split; [intros x y; apply set90_depth|auto]. Qed.
Print Assumptions C77_rectilinear_set.
(* If the flag says that a set is rectilinear, the set of rectilinear polygons that the
   boolean operators continue with covers the same unit squares as often. *)
Theorem C77_rectilinear_reading : forall s, valid45 (s_data s) (s_manhattan s) -> s_manhattan s = true ->
  forall x y, cnt (manhattan_data s) x y = depth45 (s_data s) (cell_mid x) (cell_mid y).
Proof. intros s V M x y. apply manhattan_cnt; assumption. Qed.
Print Assumptions C77_rectilinear_reading.

Definition octagon : gpoly := mk_gpoly
  [mk_pt 2 0; mk_pt 6 0; mk_pt 6 0; mk_pt 8 2; mk_pt 8 6; mk_pt 6 8; mk_pt 2 8; mk_pt 0 6; mk_pt 0 2; mk_pt 2 0]
  [[mk_pt 3 3; mk_pt 4 2; mk_pt 5 3; mk_pt 4 4]].
Definition oct45 : set45 := match insert_polygon45 64 false octagon empty45 with Ok s => s | _ => empty45 end.
Example C77_demo : insert_polygon45 64 false octagon empty45 = Ok oct45 /\ gpoly_45 octagon /\ length (s_data oct45) = 12%nat /\ s_manhattan oct45 = false /\ valid45 (s_data oct45) (s_manhattan oct45) /\
  valid45 (s_data (insert_rect45 false (mk_rect 0 5 1 3) empty45)) true /\ s_manhattan (insert_rect45 false (mk_rect 0 5 1 3) empty45) = true /\ rect_ok (mk_rect 0 5 1 3).
Proof.
  assert (V : valid45 [] true) by (split; [constructor|intros _; constructor]).
  assert (R : rect_ok (mk_rect 0 5 1 3)) by (split; cbn; lia).
  assert (G : gpoly_45 octagon). { unfold octagon, gpoly_45, cycle_45, cyc_edges. cbn [g_outer g_holes combine app]. repeat (apply conj || apply Forall_cons || apply Forall_nil); unfold edge_45, axis_edge; cbn [px py fst snd]; lia. }
  assert (E : insert_polygon45 64 false octagon empty45 = Ok oct45) by (vm_compute; reflexivity).
  split; [exact E|]. split; [exact G|]. split; [vm_compute; reflexivity|]. split; [vm_compute; reflexivity|]. split; [apply (proj2 (proj2 (C77_polygon _ _ _ _ _ E G)) V)|].
  split; [apply (proj2 (proj2 (C77_rectangle false (mk_rect 0 5 1 3) empty45 R)) V)|]. split; [reflexivity|exact R].
Qed.

(* Inserting a set of rectilinear polygons as a hole does not subtract it: only the count of
   the horizontal edges is negated. The square from 0 to 10 with the square from 2 to 4
   inserted as a hole is a set marked as rectilinear that is not balanced any more, and the
   boolean operators and clean() see the hole covered twice instead of not at all. *)
Definition square_90 (a b : Z) : list vertex := [(a, (a, 1)); (a, (b, -1)); (b, (a, -1)); (b, (b, 1))].
Theorem C77_rectilinear_set_as_hole_refuted : exists o t s, Scan90Spec.closed t /\ valid45 (s_data s) (s_manhattan s) /\
  s_manhattan (insert_set90 true o t s) = true /\ ~ valid45 (s_data (insert_set90 true o t s)) true /\
  exists x y, cnt (manhattan_data (insert_set90 true o t s)) x y = 2 /\ depth45 (s_data s) (cell_mid x) (cell_mid y) - wind o t x y = 0.
Proof.
  exists Vertical, (square_90 2 4), (insert_set90 false Vertical (square_90 0 10) empty45).
  assert (V : valid45 [] true) by (split; [constructor|intros _; constructor]).
  destruct (C77_rectilinear_set Vertical (square_90 0 10) empty45) as [D [_ W]].
  split; [split; intros z; unfold square_90; cbn [col_total row_total vx vy vc fst snd]; destruct (2 =? z), (4 =? z); reflexivity|].
  split; [apply W, V|]. split; [reflexivity|]. split.
  - intros [B _]. rewrite Forall_forall in B. specialize (B (mk_v45 (mk_pt 2 2) 0 (-1) 0 1)). assert (X : In (mk_v45 (mk_pt 2 2) 0 (-1) 0 1) (s_data (insert_set90 true Vertical (square_90 2 4) (insert_set90 false Vertical (square_90 0 10) empty45)))) by (do 4 right; left; reflexivity). specialize (B X). unfold balanced in B. cbn in B. lia.
  - exists 2, 2. split; [reflexivity|]. rewrite D. reflexivity.
Qed.
Print Assumptions C77_rectilinear_set_as_hole_refuted.
(* A vertex that is inserted as a hole is inserted as it is. *)
Theorem C77_vertex_as_hole_refuted : exists v, balanced v /\ s_data (insert_vertex45 true v empty45) = [v] /\ exists x y, depth45 [v] x y <> 0.
Proof.
  exists (mk_v45 (mk_pt 0 0) 0 1 0 1). split; [reflexivity|]. split; [reflexivity|]. exists (cell_mid 0), (cell_mid 0). unfold depth45. cbn [tot]. rewrite axis_depth. cbn [px py]. discriminate.
Qed.
Print Assumptions C77_vertex_as_hole_refuted.
