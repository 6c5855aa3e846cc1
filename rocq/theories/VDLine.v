(* Sites on a vertical line: the diagram consists of parallel lines. *)
From Coq Require Import Sorting.Permutation.
From Verif Require Import Base Units Outcome Poly90Model VorSpec VorModel GeoSpec VorProofs VDModel VDSpec VDMem VDInsert VDBeach VDSweep VDOrbit VDBuild VDDrop VDLink.
Local Open Scope nat_scope.

Definition lined (k : nat) (E : list dart) : Prop := forall j, j < k - 1 -> cl E (2 * j) = Some j /\ cl E (2 * j + 1) = Some (j + 1).
(* all sites are points or vertical segments with the same x *)
Definition on_vertical_line (all : list sev) : Prop := exists x, forall s, In s all -> px (e_p0 s) = x /\ px (e_p1 s) = x.

Section Line.
Variables (all : list sev) (G : geometry) (cap : nat).
Hypothesis NUM : numbered all.
Hypothesis CAP : length all <= cap.
Lemma init_lined : forall l k first st, inv all G cap k st -> nth_error all (k - 1) = Some first ->
  (forall j s, nth_error l j = Some s -> nth_error all (k + j) = Some s) -> st_ends st = [] -> dg_vertices (st_out st) = [] -> lined k (dg_edges (st_out st)) ->
  match last_of None (st_beach st) with Some l => e_sorted (n_right l) = e_sorted first | None => True end ->
  exists st', init_collinear first l st = Ok st' /\ inv all G cap (k + length l) st' /\ st_sites st' = st_sites st /\ st_queue st' = st_queue st /\
    dg_vertices (st_out st') = [] /\ lined (k + length l) (dg_edges (st_out st')).
Proof.
  induction l as [|second l IH]; intros k first st I N NS EE NV LN LA; cbn [init_collinear length].
  - exists st. rewrite Nat.add_0_r. split; [reflexivity|]. split; [exact I|]. split; [reflexivity|]. split; [reflexivity|]. split; assumption.
  - assert (N2 : nth_error all k = Some second) by (rewrite <- (Nat.add_0_r k); apply NS; reflexivity).
    destruct (coll_inv all G cap NUM CAP k st first second I N N2 EE LA) as [out' [e2 [E1 [ED I1]]]]. rewrite E1. cbn [obind].
    pose proof (v_k _ _ _ _ _ I) as K. pose proof (v_count _ _ _ _ _ I) as CT. rewrite NV in CT. cbn [length] in CT. destruct (NUM _ _ N) as [F1 _]. destruct (NUM _ _ N2) as [F2 _].
    assert (NV' : dg_vertices out' = []).
    { pose proof (v_count _ _ _ _ _ I1) as CT'. cbn [st_out] in CT'. rewrite ED, app_length in CT'. cbn [length pair_darts] in CT'. destruct (dg_vertices out'); [reflexivity|]. cbn [length] in CT'. lia. }
    match type of I1 with inv _ _ _ _ ?s => set (st1 := s) in * end.
    destruct (IH (S k) second st1 I1) as [st2 [E2 [I2 [S2 [Q2 [V2 L2]]]]]].
    + cbn. rewrite Nat.sub_0_r. exact N2.
    + intros j s Hj. rewrite Nat.add_succ_comm. apply NS. exact Hj.
    + exact EE.
    + exact NV'.
    + cbn [st1 st_out]. intros j J. rewrite ED, !pair_cl, CT. destruct (Nat.ltb_spec (2 * j) (2 * (k - 1) + 2 * 0)).
      * destruct (Nat.ltb_spec (2 * j + 1) (2 * (k - 1) + 2 * 0)); [|lia]. apply LN. lia.
      * assert (j = k - 1) by lia. subst j. destruct (Nat.eqb_spec (2 * (k - 1)) (2 * (k - 1) + 2 * 0)); [|lia]. destruct (Nat.ltb_spec (2 * (k - 1) + 1) (2 * (k - 1) + 2 * 0)); [lia|].
        destruct (Nat.eqb_spec (2 * (k - 1) + 1) (2 * (k - 1) + 2 * 0)); [lia|]. destruct (Nat.eqb_spec (2 * (k - 1) + 1) (2 * (k - 1) + 2 * 0 + 1)); [|lia]. rewrite F1, F2. split; [reflexivity|]. f_equal. lia.
    + cbn [st1 st_beach]. rewrite last_of_snoc. reflexivity.
    + exists st2. split; [exact E2|]. replace (k + S (length l)) with (S k + length l) by lia. split; [exact I2|]. split; [rewrite S2; reflexivity|]. split; [rewrite Q2; reflexivity|]. split; [exact V2|exact L2].
Qed.
Lemma skip_all x : forall l, (forall s, In s l -> px (e_p0 s) = x /\ px (e_p1 s) = x) -> skip_vertical x l = (l, []).
Proof.
  induction l as [|s l IH]; intros H; cbn [skip_vertical]; [reflexivity|]. destruct (H s (or_introl eq_refl)) as [A B]. unfold sev_vertical. rewrite A, B, Z.eqb_refl. cbn [andb].
  rewrite IH by (intros t T; apply H; right; exact T). reflexivity.
Qed.
Lemma line_sweep : on_vertical_line all -> 2 <= length all -> exists st, construct_sweep G cap all = Ok st /\ inv all G cap (length all) st /\ dg_vertices (st_out st) = [] /\ lined (length all) (dg_edges (st_out st)).
Proof.
  intros [x X] L2. assert (CASE : exists s t l, all = s :: t :: l) by (clear - L2; destruct all as [|s [|t l]]; cbn in L2; try lia; exists s, t, l; reflexivity).
  destruct CASE as [s [t [l EA]]]. unfold construct_sweep.
  assert (IB : init_beach_line all (dg_reserve cap) = init_collinear s (t :: l) (mk_vst [] [] [] [] 0 (dg_reserve cap))).
  { rewrite EA. cbn [init_beach_line]. rewrite <- EA. rewrite (proj1 (X s ltac:(rewrite EA; left; reflexivity))), (skip_all x all X), EA. reflexivity. }
  destruct (init_lined (t :: l) 1 s (mk_vst [] [] [] [] 0 (dg_reserve cap))) as [st [E [I [S [Q [V N]]]]]].
  - apply inv_start; first [assumption|lia].
  - rewrite EA. reflexivity.
  - intros j u H. rewrite EA. exact H.
  - reflexivity.
  - reflexivity.
  - intros j J. lia.
  - exact Logic.I.
  - rewrite IB, E. cbn [obind]. exists st. assert (LEN : 1 + length (t :: l) = length all) by (rewrite EA; reflexivity). rewrite LEN in I, N. split; [|split; [exact I|split; assumption]].
    cbn [st_sites] in S. cbn [st_queue] in Q. unfold sweep_fuel. destruct (3 * length all); cbn [sweep]; unfold finished; rewrite Q, S; reflexivity.
Qed.
End Line.

(* nothing is removed from a diagram without vertices *)
Lemma mono_onto o m n : (forall i, i < m -> o i < n) -> (forall i j, i < j -> j < m -> o i < o j) -> (forall j, j < n -> exists i, i < m /\ o i = j) -> m = n /\ forall i, i < m -> o i = i.
Proof.
  intros IN MO ON. assert (ID : forall i, i < m -> o i = i).
  { intros i. induction i as [i IH] using lt_wf_ind. intros H. assert (GE : i <= o i).
    { destruct i as [|i]; [lia|]. assert (o i < o (S i)) by (apply MO; lia). rewrite (IH i) in H0 by lia. lia. }
    destruct (Nat.eq_dec (o i) i) as [E|E]; [exact E|]. exfalso. destruct (ON i) as [j [J1 J2]]; [pose proof (IN i H); lia|].
    destruct (Nat.lt_trichotomy i j) as [T|[T|T]]; [pose proof (MO i j T J1); lia|subst j; lia|]. rewrite (IH j T J1) in J2. lia. }
  split; [|exact ID]. destruct (Nat.lt_trichotomy m n) as [T|[T|T]]; [|exact T|].
  - destruct (ON m T) as [i [I1 I2]]. rewrite (ID i I1) in I2. lia.
  - pose proof (IN n T). rewrite (ID n T) in H. lia.
Qed.
Lemma joined_nil u w : joined [] u w -> u = w.
Proof. induction 1; [contradiction|reflexivity|congruence|congruence]. Qed.
Lemma short_none E : forall n, short_edges [] E n = [].
Proof. induction n as [|n IH]; [reflexivity|]. rewrite short_edges_S, IH. cbn [app]. unfold short_edge. destruct (vx E (2 * n)) as [[|u]|], (vx E (2 * n + 1)) as [[|w]|]; reflexivity. Qed.
Lemma line_kept g g' o : dg_vertices g = [] -> wf (length (dg_cells g)) 0 (dg_edges g) -> built g g' o -> merged g g' o ->
  length (dg_edges g') = length (dg_edges g) /\ (forall i, i < length (dg_edges g') -> o i = i) /\ dg_vertices g' = [].
Proof.
  intros NV W B M. assert (NS : forall k, short_edge (dg_vertices g) (dg_edges g) k = []).
  { intros k. rewrite NV. unfold short_edge. destruct (vx (dg_edges g) (2 * k)) as [[|u]|], (vx (dg_edges g) (2 * k + 1)) as [[|w]|]; reflexivity. }
  assert (X : length (dg_edges g') = length (dg_edges g) /\ forall i, i < length (dg_edges g') -> o i = i).
  { apply mono_onto; [exact (bt_in _ _ _ B)|exact (bt_order _ _ _ B)|]. intros j J. destruct (even_or j) as [k [->| ->]].
    - apply (mg_kept _ _ _ M k J), NS.
    - assert (K : 2 * k < length (dg_edges g)) by lia. destruct (proj2 (mg_kept _ _ _ M k K) (NS k)) as [i [I1 I2]].
      destruct (bt_twin _ _ _ B i I1) as [t [_ [T2 T3]]]. exists t. split; [exact T2|]. rewrite I2, (w_tn _ _ _ W _ K), tw_even in T3. congruence. }
  destruct X as [X1 X2]. split; [exact X1|]. split; [exact X2|]. destruct (dg_vertices g') as [|b V] eqn:Q; [reflexivity|]. exfalso.
  destruct (mg_vertex _ _ _ M 0 b) as [[u [a [A _]]] _]; [rewrite Q; reflexivity|]. rewrite NV in A. destruct u; discriminate.
Qed.
