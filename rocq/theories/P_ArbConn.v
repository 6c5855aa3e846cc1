(* C68: connectivity_extraction of polygon sets with edges of any angle. *)
From Verif Require Import Base Units Outcome Scan90Spec Poly90Spec Poly90Model Poly90Vertices GeoSpec IvlModel RectModel SegModel PolySpec PolyModel ScanBaseModel SnapModel SnapSpec ArbSpec ArbModel ArbSetModel ArbSetProofs ArbMergeSpec ArbConnModel ArbConnCor.
From Coq Require Import Reals Lra Classical.

(* extract ends without overflow or undefined behaviour if and only if one of the nodes
   is not empty after cleaning. *)
Theorem C68_defined : forall sets, (forall a, In a sets -> good_edges a /\ closed (as_set a)) ->
  (exists g, connectivity sets = Ok g) <-> (exists a, In a sets /\ set_clean a <> Ok []).
Proof.
  intros sets H. split.
  - intros [g E]. apply NNPP. intros N. rewrite conn_empty in E; [discriminate|]. intros a A. apply NNPP. intros K. apply N. exists a. auto.
  - intros [a [A N]]. destruct (conn_main sets a H A N) as [g [D [E _]]]. exists g. exact E.
Qed.
Print Assumptions C68_defined.
Lemma conn_some sets g : connectivity sets = Ok g -> (forall a, In a sets -> good_edges a /\ closed (as_set a)) ->
  exists D : Z -> R -> R -> Z, (forall i j, In (i, j) g <-> i <> j /\ touching (D i) (D j)) /\
    (forall k x y, clear_by 2 (map fst (nth_set sets k)) x y -> (0 < D k x y <-> 0 < depth_below (as_set (nth_set sets k)) 0 x y)) /\
    ((forall a, In a sets -> axis_parallel a) -> forall k x y, 0 < D k x y <-> 0 < depth_below (as_set (nth_set sets k)) 0 x y).
Proof.
  intros E H. destruct (proj1 (C68_defined sets H) (ex_intro _ g E)) as [a [A N]]. destruct (conn_main sets a H A N) as [g' [D [E' K]]]. assert (g' = g) by congruence. subst g'. exists D. exact K.
Qed.
Lemma set_at sets i a : nth_error sets i = Some a -> nth_set sets (Z.of_nat i) = a.
Proof. intros H. unfold nth_set. destruct (Z.of_nat i <? 0) eqn:Q; [lia|]. rewrite Nat2Z.id. apply nth_error_nth, H. Qed.
Lemma D_node sets (D : Z -> R -> R -> Z) (K : forall k x y, clear_by 2 (map fst (nth_set sets k)) x y -> (0 < D k x y <-> 0 < depth_below (as_set (nth_set sets k)) 0 x y)) k x y :
  0 < D k x y -> 0 <= k < Z.of_nat (length sets).
Proof.
  intros P. destruct (Z_lt_dec k 0) as [A|A]; [|destruct (Z_lt_dec k (Z.of_nat (length sets))) as [B|B]; [lia|]]; exfalso.
  all: assert (E : nth_set sets k = []) by (unfold nth_set; destruct (k <? 0) eqn:Q; [reflexivity|]; try lia; apply nth_overflow; lia).
  all: specialize (K k x y); rewrite E in K; apply K in P; [cbn in P; lia|intros e x' y' []].
Qed.
(* The graph joins two different nodes, in both directions. *)
Theorem C68_graph : forall sets g i j, connectivity sets = Ok g -> (forall a, In a sets -> good_edges a /\ closed (as_set a)) -> In (i, j) g ->
  In (j, i) g /\ i <> j /\ 0 <= i < Z.of_nat (length sets) /\ 0 <= j < Z.of_nat (length sets).
Proof.
  intros sets g i j E H I. destruct (conn_some sets g E H) as [D [G [K _]]]. destruct (proj1 (G i j) I) as [N [x [y [A B]]]]. split; [apply G; split; [congruence|]; exists x, y; auto|]. split; [exact N|].
  destruct (A 1%R ltac:(lra)) as [x1 [y1 [_ [_ P]]]]. destruct (B 1%R ltac:(lra)) as [x2 [y2 [_ [_ Q]]]]. split; [apply (D_node sets D K i x1 y1 P)|apply (D_node sets D K j x2 y2 Q)].
Qed.
Print Assumptions C68_graph.
Lemma touching_ext (A A' B B' : R -> R -> Z) : (forall x y, 0 < A x y <-> 0 < A' x y) -> (forall x y, 0 < B x y <-> 0 < B' x y) -> touching A B -> touching A' B'.
Proof.
  intros H K [x [y [P Q]]]. exists x, y. split; intros eps E; [destruct (P eps E) as [u [v [U [V W]]]]|destruct (Q eps E) as [u [v [U [V W]]]]]; exists u, v; (split; [exact U|]; split; [exact V|]); [apply H|apply K]; exact W.
Qed.
(* If all edges are horizontal or vertical two nodes are joined exactly if they touch:
   if they overlap, or share a part of an edge, or a single point. *)
Theorem C68_axis_parallel : forall sets g i j a b, connectivity sets = Ok g -> (forall a, In a sets -> good_edges a /\ closed (as_set a)) -> (forall a, In a sets -> axis_parallel a) ->
  nth_error sets i = Some a -> nth_error sets j = Some b ->
  (In (Z.of_nat i, Z.of_nat j) g <-> i <> j /\ touching (depth_below (as_set a) 0) (depth_below (as_set b) 0)).
Proof.
  intros sets g i j a b E H AX IA IB. destruct (conn_some sets g E H) as [D [G [_ K]]]. specialize (K AX). rewrite (G _ _). assert (N : Z.of_nat i <> Z.of_nat j <-> i <> j) by lia. rewrite N.
  assert (KA := K (Z.of_nat i)). rewrite (set_at sets i a IA) in KA. assert (KB := K (Z.of_nat j)). rewrite (set_at sets j b IB) in KB.
  split; intros [P Q]; (split; [exact P|]); revert Q; apply touching_ext; intros x y; rewrite ?KA, ?KB; reflexivity.
Qed.
Print Assumptions C68_axis_parallel.
(* Edges of any angle: two nodes are joined if both cover a point that is two units away,
   in x or in y, from their edges. *)
Theorem C68_overlap : forall sets g i j a b x y, connectivity sets = Ok g -> (forall a, In a sets -> good_edges a /\ closed (as_set a)) ->
  nth_error sets i = Some a -> nth_error sets j = Some b -> i <> j ->
  clear_by 2 (map fst a) x y -> clear_by 2 (map fst b) x y -> 0 < depth_below (as_set a) 0 x y -> 0 < depth_below (as_set b) 0 x y ->
  In (Z.of_nat i, Z.of_nat j) g.
Proof.
  intros sets g i j a b x y E H IA IB N CA CB PA PB. destruct (conn_some sets g E H) as [D [G [K _]]]. apply G. split; [lia|].
  assert (KA := K (Z.of_nat i) x y). rewrite (set_at sets i a IA) in KA. assert (KB := K (Z.of_nat j) x y). rewrite (set_at sets j b IB) in KB.
  exists x, y. split; intros eps EP; exists x, y; (assert (Z0 : (Rabs (x - x) < eps)%R) by (rewrite Rminus_diag_eq, Rabs_R0 by reflexivity; lra)); (assert (Z1 : (Rabs (y - y) < eps)%R) by (rewrite Rminus_diag_eq, Rabs_R0 by reflexivity; lra)); (split; [exact Z0|]; split; [exact Z1|]); [apply KA|apply KB]; assumption.
Qed.
Print Assumptions C68_overlap.
(* Nodes that are joined are close: there are points as close to each other as you like
   that each lie in one of the nodes, or less than two units from one of its edges. *)
Theorem C68_close : forall sets g i j a b, connectivity sets = Ok g -> (forall a, In a sets -> good_edges a /\ closed (as_set a)) ->
  nth_error sets i = Some a -> nth_error sets j = Some b -> In (Z.of_nat i, Z.of_nat j) g ->
  forall eps, (0 < eps)%R -> exists x y x' y', (Rabs (x' - x) < eps)%R /\ (Rabs (y' - y) < eps)%R /\ reaches 2 a x y /\ reaches 2 b x' y'.
Proof.
  intros sets g i j a b E H IA IB I eps EP. destruct (conn_some sets g E H) as [D [G [K _]]]. destruct (proj1 (G _ _) I) as [_ [x [y [A B]]]].
  assert (RE : forall k s, nth_error sets k = Some s -> forall u v, 0 < D (Z.of_nat k) u v -> reaches 2 s u v).
  { intros k s S u v P. destruct (classic (clear_by 2 (map fst s) u v)) as [C|C].
    - left. assert (KA := K (Z.of_nat k) u v). rewrite (set_at sets k s S) in KA. apply (KA C), P.
    - right. apply NNPP. intros N. apply C. intros e x' y' He ON Q. apply N. exists e, x', y'. split; [exact He|]. split; [exact ON|]. exact Q. }
  destruct (A (eps / 2)%R ltac:(lra)) as [x1 [y1 [A1 [A2 P]]]]. destruct (B (eps / 2)%R ltac:(lra)) as [x2 [y2 [B1 [B2 Q]]]]. exists x1, y1, x2, y2. apply Rabs_def2 in A1, A2, B1, B2.
  split; [apply Rabs_def1; lra|]. split; [apply Rabs_def1; lra|]. split; [apply (RE i a IA), P|apply (RE j b IB), Q].
Qed.
Print Assumptions C68_close.
(* The code does not test for an empty input: extract of nodes without geometry, or
   without nodes, reads the front of an empty vector. *)
Theorem C68_empty_refuted : connectivity [] = Undefined /\ connectivity [[]; []] = Undefined /\
  forall sets, (forall a, In a sets -> set_clean a = Ok []) -> connectivity sets = Undefined.
Proof. split; [vm_compute; reflexivity|]. split; [vm_compute; reflexivity|]. apply conn_empty. Qed.
Print Assumptions C68_empty_refuted.
(* two squares with a common corner, a square that shares a part of an edge with the
   second one, a square apart from the others *)
Definition demo_box (x y w h : Z) : list (seg * Z) := match insert_polygons 64 [mk_gpoly [mk_pt x y; mk_pt (x + w) y; mk_pt (x + w) (y + h); mk_pt x (y + h)] []] with Ok a => a | _ => [] end.
Definition demo_sets : list (list (seg * Z)) := [demo_box 0 0 10 10; demo_box 10 10 10 10; demo_box 20 15 5 20; demo_box 21 0 7 7].
Example C68_demo : connectivity demo_sets = Ok [(0, 1); (1, 0); (1, 2); (2, 1); (1, 2); (2, 1)] /\ (forall a, In a demo_sets -> good_edges a /\ closed (as_set a)) /\ (forall a, In a demo_sets -> axis_parallel a).
Proof.
  split; [vm_compute; reflexivity|]. let l := eval vm_compute in demo_sets in change demo_sets with l. split.
  - intros a A. cbn [In] in A. repeat destruct A as [<-|A]; try destruct A; (split; [intros e H; cbn [In] in H; repeat destruct H as [<-|H]; try destruct H; (split; [reflexivity|]); unfold fits, coord_fits; cbn [fst s_low s_high px py]; lia|]);
    intros k v; unfold as_set; cbn [map fst snd tot]; unfold along, wt, vertical_edge; cbn [fst snd s_low s_high px py]; destruct (0 =? k); cbn [Z.eqb Pos.eqb];
      repeat match goal with |- context [if eq_pt ?p v then _ else _] => destruct (eq_pt p v) end; lia.
  - intros a A. cbn [In] in A. repeat destruct A as [<-|A]; try destruct A; intros e H; cbn [In] in H; repeat destruct H as [<-|H]; try destruct H; cbn [fst s_low s_high px py]; auto.
Qed.
(* edges of any angle: a triangle that overlaps a square with a hole, a triangle in the hole *)
Definition demo_tris : list (list (seg * Z)) :=
  map (fun g => match insert_polygons 64 [g] with Ok a => a | _ => [] end)
    [ mk_gpoly [mk_pt 0 0; mk_pt 40 1; mk_pt 41 41; mk_pt 0 39] [[mk_pt 10 10; mk_pt 30 11; mk_pt 29 31; mk_pt 9 30]];
      mk_gpoly [mk_pt 34 20; mk_pt 60 3; mk_pt 61 40] []; mk_gpoly [mk_pt 14 14; mk_pt 25 16; mk_pt 19 26] [] ].
Example C68_demo_any : connectivity demo_tris = Ok [(0, 1); (1, 0); (0, 1); (1, 0); (0, 1); (1, 0); (0, 1); (1, 0); (0, 1); (1, 0)] /\ (forall a, In a demo_tris -> good_edges a /\ closed (as_set a)).
Proof.
  split; [vm_compute; reflexivity|]. let l := eval vm_compute in demo_tris in change demo_tris with l.
  intros a A. cbn [In] in A. repeat destruct A as [<-|A]; try destruct A; (split; [intros e H; cbn [In] in H; repeat destruct H as [<-|H]; try destruct H; (split; [reflexivity|]); unfold fits, coord_fits; cbn [fst s_low s_high px py]; lia|]);
    intros k v; unfold as_set; cbn [map fst snd tot]; unfold along, wt, vertical_edge; cbn [fst snd s_low s_high px py]; destruct (0 =? k); cbn [Z.eqb Pos.eqb];
      repeat match goal with |- context [if eq_pt ?p v then _ else _] => destruct (eq_pt p v) end; lia.
Qed.
