(* The Voronoi construction from the inputs to the diagram. *)
From Coq Require Import Sorting.Permutation Sorting.Sorted.
From Verif Require Import Base Units Outcome Set90Spec Poly90Model VorSpec VorModel GeoSpec VorProofs P_Vor VDModel VDSpec VDMem VDInsert VDBeach VDSweep VDOrbit VDBuild VDDrop VDLink VDQueue VDLine.
Local Open Scope nat_scope.

(* ---------- model ---------- *)
(* what the builder passes to _reserve, voronoi_builder.hpp:100: the number of site
   events before the removal of duplicates *)
Definition reserved (inputs : list input) : nat := length (insert_inputs 0 inputs).
(* construct_voronoi: insert the inputs and construct; [sorted] is the result of std::sort *)
Definition construct_voronoi (G : geometry) (inputs : list input) (sorted : list sev) : outcome diagram :=
  construct G (reserved inputs) (site_queue sorted).
Definition sweep_voronoi (G : geometry) (inputs : list input) (sorted : list sev) : outcome vst :=
  construct_sweep G (reserved inputs) (site_queue sorted).

(* ---------- specification ---------- *)
(* the states between the steps of the sweep *)
Inductive reached (G : geometry) (inputs : list input) (sorted : list sev) : vst -> Prop :=
| reached_init st : init_beach_line (site_queue sorted) (dg_reserve (reserved inputs)) = Ok st -> reached G inputs sorted st
| reached_step st st' : reached G inputs sorted st -> finished st = false -> sweep_step G st = Ok st' -> reached G inputs sorted st'.
(* a segment and one of its end points *)
Definition end_of (s t : site) : Prop := s_p0 s <> s_p1 s /\ s_p0 t = s_p1 t /\ (s_p0 t = s_p0 s \/ s_p0 t = s_p1 s).
Definition end_point (s t : site) : Prop := end_of s t \/ end_of t s.
(* a point and a segment *)
Definition mixed (s t : site) : Prop := ~ (s_p0 s = s_p1 s <-> s_p0 t = s_p1 t).
(* cell number c belongs to place c: the index of the source and the category name a site there *)
Definition cells_of (inputs : list input) (places : list site) (cells : list vcell) : Prop :=
  length cells = length places /\ forall c a p, nth_error cells c = Some a -> nth_error places c = Some p -> names inputs (c_source a) (cell_category (c_color a)) (s_p0 p) (s_p1 p).
(* The flags of an edge. Secondary: between a segment and its end point. Curved:
   between a segment and a point that is not its end point. *)
Definition flags_of (places : list site) (E : list dart) : Prop :=
  forall i, i < length E -> exists t a b p q bits, tn E i = Some t /\ cl E i = Some a /\ cl E t = Some b /\ nth_error places a = Some p /\ nth_error places b = Some q /\ col E i = Some bits /\
    (is_secondary bits = true <-> end_point p q) /\ (is_primary bits = negb (is_secondary bits)) /\
    (is_curved bits = true <-> mixed p q /\ ~ end_point p q) /\ (is_linear bits = negb (is_curved bits)).
(* the place of every site, in the order of the sweep, once *)
Definition places_of (inputs : list input) (places : list site) : Prop :=
  NoDup places /\ StronglySorted site_before places /\ forall s, In s places <-> exists g, In g inputs /\ has_site g s.

(* ---------- proofs ---------- *)
Lemma names_cat inputs i cat a b : names inputs i cat a b -> cell_category cat = cat.
Proof. unfold names, cell_category. destruct (nth_error inputs i) as [[p|p q]|]; intros H; [destruct H as [-> _]|destruct H as [[-> _]|[[-> _]|[[-> _]|[-> _]]]]|destruct H]; reflexivity. Qed.
Lemma pt_eqb_iff a b : pt_eqb a b = true <-> a = b.
Proof. unfold pt_eqb. rewrite andb_true_iff, !Z.eqb_eq. split; [intros [X Y]; apply pt_ext; assumption|intros ->; split; reflexivity]. Qed.
Lemma seg_iff s : sev_segment s = true <-> s_p0 (site_of s) <> s_p1 (site_of s).
Proof. rewrite sev_segment_site. apply is_segment_spec. Qed.
Lemma seg_iff_f s : sev_segment s = false <-> s_p0 (site_of s) = s_p1 (site_of s).
Proof. rewrite sev_segment_site. apply is_segment_false. Qed.
Lemma primary_spec s t : is_primary_edge s t = false <-> end_point (site_of s) (site_of t).
Proof.
  unfold is_primary_edge, end_point, end_of. destruct (sev_segment s) eqn:S, (sev_segment t) eqn:T; cbn [andb negb];
    rewrite ?seg_iff in S; rewrite ?seg_iff in T; rewrite ?seg_iff_f in S; rewrite ?seg_iff_f in T; cbn [site_of s_p0 s_p1] in *.
  - split; [discriminate|tauto].
  - rewrite andb_false_iff, !negb_false_iff, !pt_eqb_iff. split; [intros [H|H]; left; repeat split; try assumption; [left|right]; congruence|]. intros [[_ [_ [H|H]]]|[H _]]; [left; congruence|right; congruence|tauto].
  - rewrite andb_false_iff, !negb_false_iff, !pt_eqb_iff. split; [intros [H|H]; right; repeat split; try assumption; [left|right]; congruence|]. intros [[H _]|[_ [_ [H|H]]]]; [tauto|left; congruence|right; congruence].
  - split; [discriminate|tauto].
Qed.
Lemma linear_spec s t : is_linear_edge s t = false <-> mixed (site_of s) (site_of t) /\ ~ end_point (site_of s) (site_of t).
Proof.
  rewrite <- primary_spec. unfold is_linear_edge, mixed. destruct (is_primary_edge s t); cbn [negb].
  - destruct (sev_segment s) eqn:S, (sev_segment t) eqn:T; cbn [xorb negb]; rewrite ?seg_iff in S; rewrite ?seg_iff in T; rewrite ?seg_iff_f in S; rewrite ?seg_iff_f in T;
      (split; [intros H; split; [tauto|discriminate]|intros [H _]; try reflexivity; exfalso; tauto]) || (split; [discriminate|intros [H _]; exfalso; tauto]).
  - split; [discriminate|]. intros [_ H]. exfalso. apply H. reflexivity.
Qed.
Lemma bits_flags il ip : is_linear (edge_bits il ip) = il /\ is_curved (edge_bits il ip) = negb il /\ is_primary (edge_bits il ip) = ip /\ is_secondary (edge_bits il ip) = negb ip.
Proof. destruct il, ip; repeat split; reflexivity. Qed.
Lemma flagged_flags all E C V : wf C V E -> flagged all E -> flags_of (map site_of all) E.
Proof.
  intros W F i H. destruct (F i H) as [a [b [s [t [A [B [S [T K]]]]]]]]. exists (tw i), a, b, (site_of s), (site_of t), (edge_bits (is_linear_edge s t) (is_primary_edge s t)).
  split; [exact (w_tn _ _ _ W _ H)|]. split; [exact A|]. split; [exact B|]. split; [exact (map_nth_error _ _ _ S)|]. split; [exact (map_nth_error _ _ _ T)|]. split; [exact K|].
  destruct (bits_flags (is_linear_edge s t) (is_primary_edge s t)) as [-> [-> [-> ->]]]. pose proof (primary_spec s t) as PS. pose proof (linear_spec s t) as LS. rewrite !negb_true_iff, !negb_involutive. tauto.
Qed.

Lemma wf_nil C V : wf C V [].
Proof.
  assert (F : forall (f : dart -> option nat) i, fld f [] i = None) by (intros f [|i]; reflexivity).
  constructor; try reflexivity; cbn [length]; unfold cl, vx, tn, nx, pv; intros; rewrite ?F in *; try lia; try discriminate; congruence.
Qed.
Section Cor.
Variables (G : geometry) (inputs : list input) (sorted : list sev).
Hypothesis OK : inputs_ok inputs.
Hypothesis SORT : sorted_events inputs sorted.
Let all := site_queue sorted.
Let cap := reserved inputs.
Lemma NUM : numbered all.
Proof. exact (queue_numbered inputs sorted OK SORT). Qed.
Lemma CAP : length all <= cap.
Proof. exact (queue_length inputs sorted SORT). Qed.

Lemma places_all : places_of inputs (map site_of all).
Proof. destruct (queue_facts inputs sorted OK SORT) as [Q1 [Q2 [Q3 _]]]. split; [exact Q2|]. split; [exact Q3|exact Q1]. Qed.
Lemma cells_all k : cells_of inputs (firstn k (map site_of all)) (map new_cell (firstn k all)).
Proof.
  split; [rewrite firstn_map, !map_length; reflexivity|]. intros c a p A P. rewrite firstn_map in P. rewrite nth_error_map in A, P. destruct (nth_error (firstn k all) c) as [s|] eqn:N; [|discriminate]. cbn [option_map] in A, P.
  assert (a = new_cell s) by congruence. assert (p = site_of s) by congruence. subst a p. assert (N' : nth_error all c = Some s).
  { rewrite nth_firstn in N. destruct (c <? k); [exact N|discriminate]. }
  destruct (queue_element inputs sorted SORT c s N') as [e [E1 E2]]. destruct (insert_names inputs 0 e E1) as [_ [i [g [I1 [_ [_ NM]]]]]]. subst s. cbn [new_cell c_source c_color site_of set_sorted e_initial e_cat e_p0 e_p1 s_p0 s_p1]. rewrite (names_cat _ _ _ _ _ NM), I1. exact NM.
Qed.
Lemma small_init : length all <= 1 -> exists st, init_beach_line all (dg_reserve cap) = Ok st /\ finished st = true /\ dg_vertices (st_out st) = [] /\ dg_edges (st_out st) = [] /\ dg_cells (st_out st) = map new_cell all /\ dg_cap (st_out st) = cap /\ st_ends st = [].
Proof.
  intros L. destruct all as [|s [|t l]] eqn:A; cbn [length] in L; [|pose proof CAP as CP; rewrite A in CP; cbn [length] in CP|lia].
  - eexists. split; [reflexivity|]. repeat split.
  - eexists. cbn [init_beach_line]. unfold process_single_site, push_cell, dg_reserve. cbn [dg_cells dg_cap dg_vertices dg_edges length]. destruct (Nat.ltb_spec 0 cap); [|lia]. cbn [obind]. split; [reflexivity|]. repeat split.
Qed.
Lemma reached_inv st : reached G inputs sorted st -> 2 <= length all -> exists k, inv all G cap k st /\ 2 <= k /\ st_sites st = skipn k all /\ top_ok G st.
Proof.
  intros R L. induction R as [st E|st st' R IH F E].
  - destruct (init_inv all G cap NUM CAP (queue_begins inputs sorted OK SORT) L) as [k [s0 [E0 [I [K [S [Q _]]]]]]]. fold all cap in E. assert (st = s0) by congruence. subst s0. exists k. split; [exact I|]. split; [exact K|]. split; [exact S|left; exact Q].
  - destruct IH as [k [I [K [S T]]]]. destruct (sweep_step_inv all G cap NUM CAP k st I K S T F) as [k' [s' [E' [I' [K' [S' [T' _]]]]]]]. assert (s' = st') by congruence. subst s'. exists k'. repeat (split; [assumption|]). assumption.
Qed.
Lemma reached_small st : reached G inputs sorted st -> length all <= 1 -> init_beach_line all (dg_reserve cap) = Ok st /\ finished st = true.
Proof.
  intros R L. destruct (small_init L) as [s0 [E0 [F0 _]]]. induction R as [st E|st st' R IH F E].
  - fold all cap in E. split; [exact E|]. congruence.
  - destruct IH as [_ H]. congruence.
Qed.
Lemma reached_all st : reached G inputs sorted st -> exists k, k <= length all /\ dg_cells (st_out st) = map new_cell (firstn k all) /\ dg_cap (st_out st) = cap /\
  wf k (length (dg_vertices (st_out st))) (dg_edges (st_out st)) /\ flagged all (dg_edges (st_out st)) /\
  length (dg_edges (st_out st)) = 2 * (k - 1) + 2 * length (dg_vertices (st_out st)) /\ length (dg_vertices (st_out st)) <= 2 * (k - 1) - 1.
Proof.
  intros R. destruct (le_lt_dec (length all) 1) as [L|L].
  - destruct (reached_small st R L) as [E _]. destruct (small_init L) as [s0 [E0 [_ [V0 [D0 [C0 [P0 _]]]]]]]. assert (st = s0) by congruence. subst s0. exists (length all). rewrite V0, D0, firstn_all. cbn [length].
    split; [lia|]. split; [exact C0|]. split; [exact P0|]. split; [|split; [intros i H; cbn in H; lia|lia]].
    apply wf_nil.
  - destruct (reached_inv st R L) as [k [I [K _]]]. exists k. pose proof (v_k _ _ _ _ _ I). pose proof (v_cells _ _ _ _ _ I) as C. destruct (Nat.eqb_spec k 1); [lia|]. pose proof (v_some _ _ _ _ _ I K) as SO. pose proof (v_room _ _ _ _ _ I) as RO.
    assert (1 <= length (edges_of (st_beach st))) by (destruct (edges_of (st_beach st)); [congruence|cbn; lia]).
    split; [lia|]. split; [exact C|]. split; [exact (v_cap _ _ _ _ _ I)|]. split; [exact (v_wf _ _ _ _ _ I)|]. split; [exact (v_flags _ _ _ _ _ I)|]. split; [exact (v_count _ _ _ _ _ I)|lia].
Qed.
Lemma progress st : reached G inputs sorted st -> finished st = false -> exists st', sweep_step G st = Ok st'.
Proof.
  intros R F. destruct (le_lt_dec (length all) 1) as [L|L]; [destruct (reached_small st R L); congruence|].
  destruct (reached_inv st R L) as [k [I [K [S T]]]]. destruct (sweep_step_inv all G cap NUM CAP k st I K S T F) as [k' [s' [E' _]]]. exists s'. exact E'.
Qed.
Lemma sweep_reached : forall fuel st st', reached G inputs sorted st -> sweep fuel G st = Ok st' -> reached G inputs sorted st' /\ finished st' = true.
Proof.
  induction fuel as [|fuel IH]; intros st st' R E; cbn [sweep] in E; destruct (finished st) eqn:F.
  - split; congruence.
  - discriminate.
  - split; congruence.
  - destruct (sweep_step G st) as [s1| |] eqn:S1; cbn [obind] in E; try discriminate. exact (IH s1 st' (reached_step _ _ _ _ _ R F S1) E).
Qed.
Lemma sweep_ok : exists st, sweep_voronoi G inputs sorted = Ok st.
Proof.
  unfold sweep_voronoi. fold all cap. destruct (le_lt_dec (length all) 1) as [L|L].
  - destruct (small_init L) as [s0 [E0 [F0 _]]]. unfold construct_sweep. rewrite E0. cbn [obind]. exists s0. destruct (sweep_fuel all); cbn [sweep]; rewrite F0; reflexivity.
  - destruct (construct_sweep_inv all G cap NUM CAP (queue_begins inputs sorted OK SORT) L) as [st [E _]]. exists st. exact E.
Qed.
Lemma sweep_end st : sweep_voronoi G inputs sorted = Ok st -> reached G inputs sorted st /\ finished st = true /\
  dg_cells (st_out st) = map new_cell all /\ st_ends st = [].
Proof.
  intros E. assert (R : reached G inputs sorted st /\ finished st = true).
  { unfold sweep_voronoi, construct_sweep in E. destruct (init_beach_line _ _) as [s0| |] eqn:I0; cbn [obind] in E; try discriminate. exact (sweep_reached _ s0 st (reached_init _ _ _ _ I0) E). }
  destruct R as [R F]. split; [exact R|]. split; [exact F|]. destruct (le_lt_dec (length all) 1) as [L|L].
  - destruct (reached_small st R L) as [E1 _]. destruct (small_init L) as [s0 [E0 [_ [_ [_ [C0 [_ N0]]]]]]]. assert (st = s0) by congruence. subst s0. split; [exact C0|exact N0].
  - destruct (construct_sweep_inv all G cap NUM CAP (queue_begins inputs sorted OK SORT) L) as [s0 [E0 [I _]]]. unfold sweep_voronoi in E. fold all cap in E. assert (st = s0) by congruence. subst s0.
    pose proof (v_cells _ _ _ _ _ I) as C. destruct (Nat.eqb_spec (length all) 1); [lia|]. rewrite firstn_all in C. split; [exact C|].
    destruct (st_ends st) as [|e l] eqn:EE; [reflexivity|]. exfalso. destruct (v_pend _ _ _ _ _ I (queue_ordered inputs sorted OK SORT) e) as [j [t [J [T _]]]]; [rewrite EE; left; reflexivity|].
    assert (j < length all) by (apply nth_error_Some; congruence). lia.
Qed.
Lemma construct_ok st : no_return G -> sweep_voronoi G inputs sorted = Ok st -> exists g' o, construct_voronoi G inputs sorted = Ok g' /\ built (st_out st) g' o /\
  (clustered (dg_vertices (st_out st)) -> forest (short_edges (dg_vertices (st_out st)) (dg_edges (st_out st)) (Nat.div2 (length (dg_edges (st_out st))))) -> merged (st_out st) g' o).
Proof.
  intros NR E. destruct (sweep_end st E) as [R [F [C _]]]. unfold construct_voronoi, construct. unfold sweep_voronoi in E. rewrite E. cbn [obind].
  assert (H : wf (length (dg_cells (st_out st))) (length (dg_vertices (st_out st))) (dg_edges (st_out st)) /\ apart (dg_edges (st_out st)) /\ around3 (dg_edges (st_out st)) /\ forall v, In v (dg_vertices (st_out st)) -> v_incident v = None).
  { destruct (le_lt_dec (length all) 1) as [L|L].
    - destruct (reached_small st R L) as [E1 _]. destruct (small_init L) as [s0 [E0 [_ [V0 [D0 _]]]]]. assert (st = s0) by congruence. subst s0. rewrite V0, D0. split; [apply wf_nil|].
      split; [|split; [|intros v []]].
      + intros i H. cbn in H. lia.
      + intros i j v H. destruct i; discriminate.
    - destruct (construct_sweep_inv all G cap NUM CAP (queue_begins inputs sorted OK SORT) L) as [s0 [E0 [I _]]]. fold all cap in E. assert (st = s0) by congruence. subst s0.
      rewrite C, map_length. split; [exact (v_wf _ _ _ _ _ I)|]. split; [exact (v_apart _ _ _ _ _ I NR)|]. split; [exact (v_around _ _ _ _ _ I)|exact (v_new _ _ _ _ _ I)]. }
  destruct H as [W [AP [AR VN]]]. destruct (build_ok (st_out st) W AP) as [g' [o [B1 [B2 B3]]]].
  - intros c H. rewrite C in H. apply in_map_iff in H. destruct H as [s [<- _]]. reflexivity.
  - exact VN.
  - exists g', o. split; [exact B1|]. split; [exact B2|]. intros CL FO. apply B3. split; [exact CL|]. split; [exact FO|]. exact (around_single _ _ _ W AP AR).
Qed.
End Cor.
