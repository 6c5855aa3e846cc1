(* When boolean operations on sets of 45-degree polygons cannot fail; scaling and snapping
   of such sets. C79 *)
From Coq Require Import Reals Lra Sorting.Sorted Permutation.
From Verif Require Import Base Units Outcome Scan90Spec Poly90Spec Poly90Model GeoSpec PolySpec Set90Spec ArbSpec ArbOrder Ins45Spec Ins45Model Scan45Model Scan45Base Scan45Step Scan45Even Bool45Spec Bool45Model Bool45Proofs Bool45Insert Snap45Spec Snap45Proofs P_Bool45.
From Coq Require Import Lra.
Local Open Scope Z_scope.

(* ---------- C79 ---------- *)
(* If at all ends of diagonal edges the coordinates are both even or both odd then the
   operation does not throw. *)
Theorem C79_boolean : forall op a b sa sb, boundary45 a -> boundary45 b -> Permutation a sa -> Permutation b sb -> in_order sa -> in_order sb ->
  even_diagonals a -> even_diagonals b ->
  exists r flag, bool45 (op_code op) sa sb = Fine (r, flag) /\
    (forall x y, depth45 r x y = if op_covers op (covered45 a x y) (covered45 b x y) then 1 else 0) /\
    boundary45 r /\ strictly_in_order r /\ (flag = true <-> rectilinear45 r).
Proof.
  intros op a b sa sb A B PA PB SA SB EA EB. pose proof (C78_boolean op a b sa sb A B PA PB SA SB) as H. pose proof (run_even (logic2 (op_code op)) sa sb (perm_even _ _ PA EA) (perm_even _ _ PB EB)) as T. fold (bool45 (op_code op) sa sb) in T.
  destruct (bool45 (op_code op) sa sb) as [[r flag]| |]; [|congruence|destruct H]. exists r, flag. split; [reflexivity|exact H].
Qed.
Print Assumptions C79_boolean.
Theorem C79_self : forall op a sa, boundary45 a -> Permutation a sa -> in_order sa -> even_diagonals a ->
  exists r flag, unary45 (self_code op) sa = Fine (r, flag) /\
    (forall x y, depth45 r x y = if self_covers op (depth45 a x y) then 1 else 0) /\
    boundary45 r /\ strictly_in_order r /\ (flag = true <-> rectilinear45 r).
Proof.
  intros op a sa A PA SA EA. pose proof (C78_self op a sa A PA SA) as H. pose proof (run_even (logic1 (self_code op)) sa [] (perm_even _ _ PA EA) (Forall_nil _)) as T. rewrite merge_nil in T. fold (unary45 (self_code op) sa) in T.
  destruct (unary45 (self_code op) sa) as [[r flag]| |]; [|congruence|destruct H]. exists r, flag. split; [reflexivity|exact H].
Qed.
Print Assumptions C79_self.

(* scale_up multiplies the region, and the result is a legal operand in the same order. *)
Theorem C79_scale_up : forall k l, 0 < k -> boundary45 l ->
  boundary45 (map (scale45 k) l) /\ (in_order l -> in_order (map (scale45 k) l)) /\
  forall x y, depth45 (map (scale45 k) l) (IZR k * x) (IZR k * y) = depth45 l x y.
Proof. intros k l K B. split; [apply scale_boundary; assumption|]. split; [apply scale_order, K|]. intros x y. apply scale_depth, K. Qed.
Print Assumptions C79_scale_up.
(* After an exception the code repeats the operation with doubled coordinates. That does
   not throw again, for any operands, and gives the doubled result. *)
Theorem C79_retry : forall op a b sa sb, boundary45 a -> boundary45 b -> Permutation a sa -> Permutation b sb -> in_order sa -> in_order sb ->
  exists r flag, bool45 (op_code op) (map (scale45 2) sa) (map (scale45 2) sb) = Fine (r, flag) /\
    (forall x y, depth45 r (2 * x) (2 * y) = if op_covers op (covered45 a x y) (covered45 b x y) then 1 else 0) /\
    boundary45 r /\ strictly_in_order r /\ (flag = true <-> rectilinear45 r).
Proof.
  intros op a b sa sb A B PA PB SA SB.
  destruct (C79_boolean op (map (scale45 2) a) (map (scale45 2) b) (map (scale45 2) sa) (map (scale45 2) sb)) as [r [flag [H1 [H2 H3]]]];
    [apply scale_boundary; [lia|assumption]|apply scale_boundary; [lia|assumption]|apply Permutation_map, PA|apply Permutation_map, PB|apply scale_order; [lia|assumption]|apply scale_order; [lia|assumption]|apply scale_even|apply scale_even|].
  exists r, flag. split; [exact H1|]. split; [|exact H3]. intros x y. rewrite H2. unfold covered45. rewrite !(scale_depth 2) by lia. reflexivity.
Qed.
Print Assumptions C79_retry.
Theorem C79_retry_self : forall op a sa, boundary45 a -> Permutation a sa -> in_order sa ->
  exists r flag, unary45 (self_code op) (map (scale45 2) sa) = Fine (r, flag) /\
    (forall x y, depth45 r (2 * x) (2 * y) = if self_covers op (depth45 a x y) then 1 else 0) /\
    boundary45 r /\ strictly_in_order r /\ (flag = true <-> rectilinear45 r).
Proof.
  intros op a sa A PA SA.
  destruct (C79_self op (map (scale45 2) a) (map (scale45 2) sa)) as [r [flag [H1 [H2 H3]]]];
    [apply scale_boundary; [lia|assumption]|apply Permutation_map, PA|apply scale_order; [lia|assumption]|apply scale_even|].
  exists r, flag. split; [exact H1|]. split; [|exact H3]. intros x y. rewrite H2, (scale_depth 2) by lia. reflexivity.
Qed.
Print Assumptions C79_retry_self.

(* snap() moves vertices by at most one unit, and only those with diagonal edges and mixed
   parity; afterwards C79_boolean applies. The set stays a boundary of bounded regions if no
   vertex has a diagonal, a vertical and a third kind of edge. *)
Theorem C79_snap : forall l,
  even_diagonals (map snap45 l) /\
  (Forall simple_vertex l -> boundary45 l -> boundary45 (map snap45 l)) /\
  forall v, same_counts (snap45 v) v /\ Z.abs (px (v_pt (snap45 v)) - px (v_pt v)) + Z.abs (py (v_pt (snap45 v)) - py (v_pt v)) <= 1 /\
    (v_down v = 0 /\ v_up v = 0 \/ same_parity (v_pt v) -> snap45 v = v).
Proof.
  intros l. split; [|split].
  - apply even_iff, Forall_forall. intros v I. apply in_map_iff in I as [u [<- _]]. apply snap_even.
  - apply snap_boundary.
  - intros v. destruct (snap_cases v) as [C H]. split; [exact C|].
    assert (O : odd_pt (v_pt v) = true -> ~ even_pt (v_pt v)) by (unfold odd_pt, even_pt; rewrite <- Z.negb_odd; intros ->; discriminate).
    rewrite parity_pt. unfold skew in H.
    destruct H as [[_ E]|[[K [P [_ E]]]|[[K [P [_ [_ [_ E]]]]]|[K [P [_ [_ [_ E]]]]]]]]; rewrite E; cbn [px py]; (split; [lia|]); (intros N; first [reflexivity | exfalso; destruct N as [N|N]; [lia|exact (O P N)]]).
Qed.
Print Assumptions C79_snap.

(* Refuted without that condition: here is a set that covers nothing twice and that clean()
   has put in order, a square that touches a triangle at a corner. After snap() its
   vertical edges do not end where they begin any more, and there is a place that is covered
   -2 times. *)
Definition shapes (r : rect) (t : list point) : list v45 := s_data (insert_vseq45 true false t (insert_rect45 false r empty45)).
Lemma shapes_boundary r t : rect_ok r -> cycle_45 t -> boundary45 (shapes r t).
Proof.
  intros R C. assert (V : bvalid (insert_rect45 false r empty45)) by (apply rect45_bvalid; [exact R|exact bvalid_empty]).
  apply (bvalid_step _ (insert_vseq45 true false t (insert_rect45 false r empty45)) (Ins45Cor.vseq45_grows _ _ _ _)); [|exact V]. intros h hc. apply (vseq45_lin h hc). exact C.
Qed.
Definition cleaned (l : list v45) : list v45 := match unary45 0 (sort_v l) with Fine (r, _) => r | _ => [] end.
Definition square_and_triangle : list v45 := shapes (mk_rect 1 3 0 2) [mk_pt 0 (-1); mk_pt 1 (-1); mk_pt 1 0].
Definition touching : list v45 := cleaned square_and_triangle.
Definition triangle_below : list v45 := shapes (mk_rect 0 3 6 8) [mk_pt 0 1; mk_pt 4 1; mk_pt 4 5].
Ltac cycle_tac := unfold cycle_45, cyc_edges; cbn [combine app]; repeat (apply Forall_cons || apply Forall_nil); unfold edge_45, axis_edge; cbn [px py fst snd]; lia.
Lemma square_and_triangle_boundary : boundary45 square_and_triangle.
Proof. apply shapes_boundary; [unfold rect_ok; cbn; lia|cycle_tac]. Qed.
Lemma triangle_below_boundary : boundary45 triangle_below.
Proof. apply shapes_boundary; [unfold rect_ok; cbn; lia|cycle_tac]. Qed.
Lemma rleb_t a b : (a <= b)%R -> rleb a b = true.
Proof. apply rleb_iff. Qed.
Lemma rleb_f a b : (b < a)%R -> rleb a b = false.
Proof. unfold rleb. destruct (Rle_dec a b); [intros; exfalso; lra|reflexivity]. Qed.
Lemma rltb_t a b : (a < b)%R -> rltb a b = true.
Proof. apply rltb_iff. Qed.
Lemma rltb_f a b : (b <= a)%R -> rltb a b = false.
Proof. unfold rltb. destruct (Rlt_dec a b); [intros; exfalso; lra|reflexivity]. Qed.
Theorem C79_snap_refuted : exists l, boundary45 l /\ strictly_in_order l /\ (forall x y, depth45 l x y = 0 \/ depth45 l x y = 1) /\
  ~ boundary45 (map snap45 l) /\ depth45 (map snap45 l) 1 3 = -2.
Proof.
  exists touching. pose proof (C78_self SelfOr45 square_and_triangle (sort_v square_and_triangle) square_and_triangle_boundary (sort_perm _) (sort_order _)) as H.
  assert (E : exists flag, unary45 (self_code SelfOr45) (sort_v square_and_triangle) = Fine (touching, flag)) by (eexists; vm_compute; reflexivity). destruct E as [flag E]. rewrite E in H. destruct H as [H1 [H2 [H3 _]]].
  split; [exact H2|]. split; [exact H3|]. split; [intros x y; rewrite H1; destruct (self_covers _ _); auto|]. split.
  - intros [_ [_ B]]. specialize (B 1). vm_compute in B. discriminate.
  - assert (T : map snap45 touching = ltac:(let t := eval vm_compute in (map snap45 touching) in exact t)) by (vm_compute; reflexivity). rewrite T.
    unfold depth45. cbn [tot]. unfold v45_depth, line_below. cbn [v_pt px py v_down v_flat v_up].
    repeat match goal with
    | |- context [rleb ?a ?b] => first [rewrite (rleb_t a b) by lra | rewrite (rleb_f a b) by lra]
    | |- context [rltb ?a ?b] => first [rewrite (rltb_t a b) by lra | rewrite (rltb_f a b) by lra]
    end. reflexivity.
Qed.
Print Assumptions C79_snap_refuted.
(* Refuted: that snap() keeps the vertices in order. It does not mark the set as unsorted. *)
Theorem C79_snap_order_refuted : exists l, boundary45 l /\ strictly_in_order l /\ Forall simple_vertex l /\ ~ in_order (map snap45 l).
Proof.
  exists (cleaned triangle_below). pose proof (C78_self SelfOr45 triangle_below (sort_v triangle_below) triangle_below_boundary (sort_perm _) (sort_order _)) as H.
  assert (E : exists flag, unary45 (self_code SelfOr45) (sort_v triangle_below) = Fine (cleaned triangle_below, flag)) by (eexists; vm_compute; reflexivity). destruct E as [flag E]. rewrite E in H. destruct H as [_ [H2 [H3 _]]].
  split; [exact H2|]. split; [exact H3|].
  assert (T : cleaned triangle_below = ltac:(let t := eval vm_compute in (cleaned triangle_below) in exact t)) by (vm_compute; reflexivity). rewrite T. split.
  - repeat (apply Forall_cons || apply Forall_nil); unfold simple_vertex; cbn [v_vert v_down v_up v_flat]; lia.
  - intros S. unfold in_order in S. vm_compute (map _ _) in S. apply StronglySorted_inv in S as [_ S]. rewrite Forall_forall in S. specialize (S (mk_v45 (mk_pt 0 6) 0 1 0 1) ltac:(cbn; tauto)). cbn [v_pt] in S. destruct S as [S|S]; [unfold pt_lt in S; cbn [px py] in S; lia|discriminate S].
Qed.
Print Assumptions C79_snap_order_refuted.

(* the two diamonds that cross beside the grid: the retry gives the doubled result; snapping
   the second one makes the operation possible without it *)
Example C79_demo :
  bool45 1 (sort_v (diamond 0)) (sort_v (diamond 3)) = Throw /\
  (exists r, bool45 1 (map (scale45 2) (sort_v (diamond 0))) (map (scale45 2) (sort_v (diamond 3))) = Fine (r, false) /\ length r = 4%nat /\ In (mk_v45 (mk_pt 3 5) (-1) 0 1 0) r) /\
  even_diagonals (map snap45 (diamond 3)) /\ boundary45 (map snap45 (diamond 3)) /\ Forall simple_vertex (diamond 3) /\
  (exists r, bool45 1 (sort_v (diamond 0)) (sort_v (map snap45 (diamond 3))) = Fine (r, false) /\ length r = 4%nat).
Proof.
  assert (F : Forall simple_vertex (diamond 3)) by (assert (T : diamond 3 = ltac:(let t := eval vm_compute in (diamond 3) in exact t)) by (vm_compute; reflexivity); rewrite T; repeat (apply Forall_cons || apply Forall_nil); unfold simple_vertex; cbn [v_vert v_down v_up v_flat]; lia).
  split; [vm_compute; reflexivity|]. split; [eexists; split; [vm_compute; reflexivity|]; split; [reflexivity|cbn; tauto]|]. split; [apply C79_snap|]. split; [apply C79_snap; [exact F|apply diamond_boundary]|]. split; [exact F|]. eexists; split; [vm_compute; reflexivity|reflexivity].
Qed.
