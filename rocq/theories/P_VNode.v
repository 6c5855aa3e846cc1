(* C74: the search in the beach line of the Voronoi sweep. *)
From Coq Require Import Reals ZArith List Lia Bool.
From Verif Require Import Base Units Outcome Scan90Spec Set90Spec GeoSpec Poly90Model VorSpec VorModel VDModel RobustSpec RobustModel
  VCircleSpec VCircleModel VCircleGeo VCircleProofs VCircleExist VArcSpec VArcModel VArcProofs VNodeSpec VNodeModel VNodeProofs.
From Verif Require P_VArc.
From Coq Require Import Lra.
Import ListNotations.
Open Scope R_scope.

(* C74. [hs] are the heights at which the arcs of the beach line give way to each
   other on the sweep line of the new site s, from below. Whatever the shape of the
   tree, the search for s ends between two of them: all nodes before the one that
   is found are at most as high as s, this one and all that follow are at least as
   high. All comparisons are defined. *)
Definition older (s : sev) (n : node) : Prop := (e_sorted (n_left n) < e_sorted s)%nat /\ (e_sorted (n_right n) < e_sorted s)%nat.
Definition flags (n : node) : Prop := inverse_flag (n_left n) /\ inverse_flag (n_right n).
Theorem C74_found : forall s t hs, inverse_flag s -> e_inv s = false ->
  (forall n, In n (in_order t) -> older s n /\ flags n) ->
  Forall2 (fun n h => seen_at (px (start s)) (n_left n) (n_right n) h) (in_order t) hs ->
  (forall i j a b, (i <= j)%nat -> nth_error hs i = Some a -> nth_error hs j = Some b -> a <= b) ->
  exists i, lower_bound t (new_key s) None = Some (nth_error (in_order t) i) /\ (i <= length (in_order t))%nat /\
    forall j h, nth_error hs j = Some h -> if (j <? i)%nat then h <= IZR (py (start s)) else IZR (py (start s)) <= h.
Proof.
  intros s t hs FS IS OLD SEEN SORT. destruct (search_ok s t hs FS IS) as [i [E [L [H _]]]]; [|assumption|assumption|].
  - intros n I. destruct (OLD n I) as [[O1 O2] [F1 F2]]. auto.
  - exists i. auto.
Qed.
Print Assumptions C74_found.
(* The node before the place that is found, the new bisectors in their order and
   the node that is found are increasing for the comparison of the map, and it is
   never true both ways: the map takes the new bisectors at that place. *)
Definition below (a b : node) : Prop := node_less a b = Some true /\ node_less b a = Some false.
Theorem C74_insert : forall s t hs, inverse_flag s -> e_inv s = false ->
  (forall n, In n (in_order t) -> older s n /\ flags n) ->
  Forall2 (fun n h => seen_at (px (start s)) (n_left n) (n_right n) h) (in_order t) hs ->
  (forall i j a b, (i <= j)%nat -> nth_error hs i = Some a -> nth_error hs j = Some b -> a <= b) ->
  exists i, lower_bound t (new_key s) None = Some (nth_error (in_order t) i) /\
    forall arc1 arc2, (e_sorted arc1 < e_sorted s)%nat -> (e_sorted arc2 < e_sorted s)%nat ->
    forall k, In k [new_left_key arc1 s; new_mid_key s; new_right_key s arc2] ->
    (forall j m, i = S j -> nth_error (in_order t) j = Some m -> below m k) /\
    (forall m, nth_error (in_order t) i = Some m -> below k m).
Proof.
  intros s t hs FS IS OLD SEEN SORT. destruct (search_ok s t hs FS IS) as [i [E [L [_ [B A]]]]]; [|assumption|assumption|].
  { intros n I. destruct (OLD n I) as [[O1 O2] [F1 F2]]. auto. }
  assert (HT : forall j n, nth_error (in_order t) j = Some n -> exists h, seen_at (px (start s)) (n_left n) (n_right n) h).
  { revert SEEN. clear. intros SEEN. induction SEEN as [|n h l l' S _ IH]; intros j m E; [destruct j; discriminate|].
    destruct j; cbn in E; [injection E as <-; exists h; exact S|]. apply (IH j). exact E. }
  exists i. split; [exact E|]. intros a b HA HB k IK.
  assert (NK : is_new s k).
  { destruct IK as [<-|[<-|[<-|[]]]]; [apply new_left_new|apply new_mid_new|apply new_right_new]; assumption. }
  (* the answers for the key are the answers for the bisector *)
  assert (SAME : forall j m, nth_error (in_order t) j = Some m -> forall v, node_less m (new_key s) = Some v -> node_less m k = Some v /\ node_less k m = Some (negb v)).
  { intros j m EM v V. destruct (HT j m EM) as [h S]. destruct (OLD m (nth_error_In _ _ EM)) as [[O1 O2] [F1 F2]].
    destruct (node_side s IS m k h NK O1 O2 F1 F2 S) as [w [W1 [W2 _]]].
    assert (WV : node_less m (new_key s) = node_less m k).
    { destruct NK as [X1 [Y1 [S1 C1]]]. destruct (new_key_new s FS IS) as [X2 [Y2 [S2 C2]]]. unfold node_less.
      assert (PE : cmp_point (cmp_site k) = cmp_point (cmp_site (new_key s))).
      { destruct (cmp_point (cmp_site k)) as [u w'], (cmp_point (cmp_site (new_key s))) as [u' w'']. cbn [px py] in *. congruence. }
      rewrite PE, S1, S2, C1, C2. destruct (px (cmp_point (cmp_site m)) <? _)%Z; [reflexivity|]. destruct (px (cmp_point (cmp_site m)) >? _)%Z eqn:G.
      - rewrite <- PE in G. exfalso. destruct (HT j m EM) as [h' S'].
        assert (px (cmp_point (cmp_site m)) <= px (start s))%Z; [|rewrite X1 in G; lia].
        rewrite cmp_point_start by (unfold cmp_site; destruct (_ <? _)%nat; assumption).
        destruct (seen_start _ _ _ _ S'). unfold cmp_site. destruct (_ <? _)%nat; assumption.
      - assert (SM : (e_sorted (cmp_site m) < e_sorted s)%nat) by (unfold cmp_site; destruct (_ <? _)%nat; assumption).
        destruct (Nat.eqb_spec (e_sorted (cmp_site m)) (e_sorted s)); [lia|]. destruct (Nat.ltb_spec (e_sorted (cmp_site m)) (e_sorted s)); [reflexivity|lia]. }
    rewrite WV, W1 in V. injection V as ->. split; assumption. }
  split.
  - intros j m EJ EM. destruct (B j EJ) as [m' [EM' V]]. rewrite EM in EM'. injection EM' as <-. exact (SAME j m EM true V).
  - intros m EM. pose proof (SAME i m EM false (A m EM)) as [S1 S2]. split; assumption.
Qed.
Print Assumptions C74_insert.
Theorem C74_new_bisectors : forall s arc1 arc2, inverse_flag s -> e_inv s = false -> (e_sorted arc1 < e_sorted s)%nat -> (e_sorted arc2 < e_sorted s)%nat ->
  below (new_left_key arc1 s) (new_right_key s arc2) /\ below (new_left_key arc1 s) (new_mid_key s) /\ below (new_mid_key s) (new_right_key s arc2).
Proof.
  intros s a b FS IS HA HB. destruct (new_order s FS IS a b HA HB) as [A1 [A2 [A3 [A4 [A5 A6]]]]]. unfold below. tauto.
Qed.
Print Assumptions C74_new_bisectors.

(* A segment that starts at the point site that was the last one to be inserted on
   the same sweep line goes into the arc of that point: between its two bisectors. *)
Theorem C74_own_point : forall s c l r i j, inverse_flag s -> e_inv s = false -> e_p0 c = start s -> e_p1 c = start s ->
  (e_sorted l < e_sorted c)%nat -> (e_sorted r < e_sorted c)%nat -> (e_sorted c < e_sorted s)%nat ->
  e_inv c = false ->
  below (mk_node i l c None None) (new_key s) /\ below (new_key s) (mk_node j c r None None).
Proof.
  intros s c l r i j FS IS E0 E1 LC RC CS IC.
  assert (FC : inverse_flag c) by (intros N; exfalso; apply N; congruence).
  assert (STC : start c = start s) by (unfold start at 1; rewrite IC; exact E0).
  assert (PC : ~ sev_segment c = true) by (rewrite sev_segment_iff; intros N; apply N; unfold is_point; congruence).
  assert (CPC : cmp_point c = start s) by (rewrite cmp_point_start by exact FC; exact STC).
  assert (CPS : cmp_point s = start s) by (apply cmp_point_start; exact FS).
  apply not_true_is_false in PC.
  unfold below, node_less, cmp_site, cmp_y, new_key. cbn [n_left n_right].
  rewrite !Nat.ltb_irrefl, !Nat.eqb_refl. cbn [negb andb].
  destruct (Nat.ltb_spec (e_sorted c) (e_sorted l)); [lia|]. destruct (Nat.eqb_spec (e_sorted l) (e_sorted c)); [lia|].
  destruct (Nat.ltb_spec (e_sorted r) (e_sorted c)); [|lia]. destruct (Nat.eqb_spec (e_sorted c) (e_sorted r)); [lia|].
  destruct (Nat.eqb_spec (e_sorted c) (e_sorted s)); [lia|]. destruct (Nat.eqb_spec (e_sorted s) (e_sorted c)); [lia|].
  destruct (Nat.ltb_spec (e_sorted c) (e_sorted s)); [|lia]. destruct (Nat.ltb_spec (e_sorted s) (e_sorted c)); [lia|].
  rewrite CPC, CPS, PC, Z.ltb_irrefl. cbn [negb andb fst snd]. rewrite Z.gtb_ltb, Z.ltb_irrefl.
  assert (Y : sy0 c = sy0 s) by (unfold sy0; rewrite E0; unfold start; rewrite IS; reflexivity).
  assert (Y1 : sy1 c = sy0 s) by (unfold sy0, sy1; rewrite E1; unfold start; rewrite IS; reflexivity).
  rewrite Y, Y1, Z.eqb_refl. repeat split.
Qed.
Print Assumptions C74_own_point.

(* the cases: the points (0, 0), (1, 1), (2, 2) and then (2, 3) *)
Definition ex_p (x y : Z) (i : nat) : sev := mk_sev (mk_pt x y) (mk_pt x y) i 0 0 false.
Definition ex_n (l r : sev) : node := mk_node 0 l r None None.
Definition ex_tree (a b c : sev) : btree :=
  BNode (BNode BLeaf (ex_n a b) BLeaf) (ex_n b c) (BNode (BNode BLeaf (ex_n c b) BLeaf) (ex_n b a) BLeaf).
Lemma ex_flag x y i : inverse_flag (ex_p x y i).
Proof. intros N. exfalso. apply N. reflexivity. Qed.
Lemma ex_cross : breakpoint (mk_pt 1 1) (mk_pt 1 1) (mk_pt 0 0) (mk_pt 0 0) (IZR 2) 4.
Proof.
  apply (P_VArc.breakpoint_of _ _ _ _ _ _ 1).
  - split; [intros _; cbn; lra|intros N; exfalso; apply N; reflexivity].
  - split; [intros _; cbn; lra|intros N; exfalso; apply N; reflexivity].
  - lra.
  - rewrite !P_VArc.ex_dist_p. lra.
  - intros z Hz. rewrite !P_VArc.ex_dist_p. assert (0 < z * (z - 4)) by (apply mul_pp; lra). lra.
  - intros z Hz. rewrite !P_VArc.ex_dist_p. assert (z * (z - 4) < 0) by (apply mul_np; lra). lra.
Qed.
Lemma ex_seen : Forall2 (fun n h => seen_at 2 (n_left n) (n_right n) h) (in_order (ex_tree (ex_p 0 0 0) (ex_p 1 1 1) (ex_p 2 2 2))) [0; 2; 2; 4].
Proof.
  cbn [in_order ex_tree app]. repeat (apply Forall2_cons || apply Forall2_nil); cbn [n_left n_right ex_n].
  - apply seen_arcs; try (cbn; lia); try (split; [intros _; cbn; lra|intros N; exfalso; apply N; reflexivity]). exact (P_VArc.ex_cross_pp 0).
  - apply (seen_below_new 2 (ex_p 1 1 1) (ex_p 2 2 2)); cbn; lia.
  - apply (seen_above_new 2 (ex_p 2 2 2) (ex_p 1 1 1)); try (cbn; lia). intros N. exfalso. apply N. reflexivity.
  - apply seen_arcs; try (cbn; lia); try (split; [intros _; cbn; lra|intros N; exfalso; apply N; reflexivity]). exact ex_cross.
Qed.
Lemma ex_old i s : (2 < e_sorted s)%nat -> forall n, In n (in_order (ex_tree (ex_p 0 0 0) (ex_p 1 1 1) (ex_p 2 2 i))) -> (i <= 2)%nat -> older s n /\ flags n.
Proof.
  intros H n I L. cbn [in_order ex_tree app] in I. destruct I as [<-|[<-|[<-|[<-|[]]]]]; (split; split; [cbn; lia|cbn; lia|apply ex_flag|apply ex_flag]).
Qed.
Lemma ex_sorted : forall i j a b, (i <= j)%nat -> nth_error [0; 2; 2; 4] i = Some a -> nth_error [0; 2; 2; 4] j = Some b -> a <= b.
Proof.
  intros i j a b L A B. destruct i as [|[|[|[|[|i]]]]]; cbn in A; try discriminate; injection A as <-;
    (destruct j as [|[|[|[|[|j]]]]]; cbn in B; try discriminate; try lia; injection B as <-; lra).
Qed.
Example C74_case : lower_bound (ex_tree (ex_p 0 0 0) (ex_p 1 1 1) (ex_p 2 2 2)) (new_key (ex_p 2 3 3)) None = Some (Some (ex_n (ex_p 1 1 1) (ex_p 0 0 0))).
Proof.
  destruct (C74_found (ex_p 2 3 3) _ [0; 2; 2; 4] (ex_flag 2 3 3) eq_refl (fun n I => ex_old 2 (ex_p 2 3 3) ltac:(cbn; lia) n I ltac:(lia)) ex_seen ex_sorted) as [i [E [L H]]].
  cbn [start ex_p e_inv e_p0 px py] in H. rewrite E. clear E. cbn [in_order ex_tree app length] in *.
  pose proof (H 2%nat 2 eq_refl) as H2. pose proof (H 3%nat 4 eq_refl) as H3.
  destruct (Nat.ltb_spec 2 i); [|exfalso; lra]. destruct (Nat.ltb_spec 3 i); [exfalso; lra|]. replace i with 3%nat by lia. reflexivity.
Qed.
Example C74_case_insert : exists i, lower_bound (ex_tree (ex_p 0 0 0) (ex_p 1 1 1) (ex_p 2 2 2)) (new_key (ex_p 2 3 3)) None =
  Some (nth_error (in_order (ex_tree (ex_p 0 0 0) (ex_p 1 1 1) (ex_p 2 2 2))) i).
Proof.
  destruct (C74_insert (ex_p 2 3 3) _ [0; 2; 2; 4] (ex_flag 2 3 3) eq_refl (fun n I => ex_old 2 (ex_p 2 3 3) ltac:(cbn; lia) n I ltac:(lia)) ex_seen ex_sorted) as [i [E _]].
  exists i. exact E.
Qed.
Example C74_case_own : below (ex_n (ex_p 1 1 1) (ex_p 2 2 2)) (new_key (mk_sev (mk_pt 2 2) (mk_pt 5 1) 3 0 0 false)).
Proof.
  apply (C74_own_point (mk_sev (mk_pt 2 2) (mk_pt 5 1) 3 0 0 false) (ex_p 2 2 2) (ex_p 1 1 1) (ex_p 1 1 1) 0 0); try (cbn; lia); try reflexivity.
  intros _. left. cbn. lia.
Qed.
