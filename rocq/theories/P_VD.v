(* C40, C41, C49, C50: the Voronoi diagram as a half-edge structure.

   [geometry] stands for what floating point arithmetic decides: the theorems hold
   for every geometry. [no_return] excludes a circle event whose first and third
   site are the same, for which no circle exists. *)
From Coq Require Import Sorting.Permutation Sorting.Sorted.
From Verif Require Import Base Units Outcome Set90Spec Poly90Model XIntModel VorSpec VorModel GeoSpec VorProofs P_Vor VDModel VDSpec VDMem VDInsert VDBeach VDSweep VDOrbit VDBuild VDDrop VDLink VDQueue VDLine VDCor VDStable.
Local Open Scope nat_scope.

(* ---------- C40: the half-edge structure during the sweep ---------- *)
(* After every event the structure is consistent, the ends of the edges are vertices
   of the diagram, and the cells are those of the first k sites. *)
Theorem C40_history G inputs sorted st : inputs_ok inputs -> sorted_events inputs sorted -> reached G inputs sorted st ->
  half_edges (length (dg_cells (st_out st))) (dg_edges (st_out st)) /\ ends_in (length (dg_vertices (st_out st))) (dg_edges (st_out st)) /\
  exists k, cells_of inputs (firstn k (map site_of (site_queue sorted))) (dg_cells (st_out st)).
Proof.
  intros OK SORT R. destruct (reached_all G inputs sorted OK SORT st R) as [k [K [C [_ [W _]]]]]. rewrite C. rewrite map_length, firstn_length, (Nat.min_l k) by exact K.
  split; [exact (wf_half_edges _ _ _ W)|]. split; [exact (w_vx _ _ _ W)|]. exists k. apply (cells_all inputs sorted SORT).
Qed.
(* An event adds cells, vertices and edges and links edges, but never changes the
   cell, the twin or the flags of an edge, nor a cell or a vertex. *)
Theorem C40_event_stable G st st' : sweep_step G st = Ok st' -> stable (st_out st) (st_out st').
Proof. apply sweep_step_stable. Qed.
(* The two halves of a new edge are twins and belong to the cells of the two sites. *)
Theorem C40_new_edge s1 s2 g g' e1 e2 : insert_site_edge s1 s2 g = Ok (g', (e1, e2)) ->
  exists n, e1 = Some n /\ e2 = Some (n + 1) /\ n = length (dg_edges g) /\ length (dg_edges g') = n + 2 /\
    cl (dg_edges g') n = Some (e_sorted s1) /\ cl (dg_edges g') (n + 1) = Some (e_sorted s2) /\ tn (dg_edges g') n = Some (n + 1) /\ tn (dg_edges g') (n + 1) = Some n.
Proof.
  intros H. assert (B : length (dg_edges g) + 2 <= 6 * dg_cap g /\ length (cells_after s1 s2 (dg_cells g)) <= dg_cap g /\ e_sorted s1 < length (cells_after s1 s2 (dg_cells g)) /\ e_sorted s2 < length (cells_after s1 s2 (dg_cells g))).
  { pose proof H as H0. unfold insert_site_edge in H. stp H. pose proof E as P1. unfold push_edge in P1. destruct (Nat.ltb_spec (length (dg_edges g)) (6 * dg_cap g)) as [B1|]; [|discriminate].
    assert (r = mk_dg (dg_cells g) (dg_vertices g) (dg_edges g ++ [new_dart (is_linear_edge s1 s2) (is_primary_edge s1 s2)]) (dg_cap g)) by congruence. subst r. clear P1 E.
    stp H. unfold push_edge in E. cbn [dg_edges dg_cap dg_cells dg_vertices] in E. rewrite app_length in E. cbn [length] in E. destruct (Nat.ltb_spec (length (dg_edges g) + 1) (6 * dg_cap g)) as [B2|]; [|discriminate].
    assert (RC : dg_cells r = dg_cells g /\ dg_cap r = dg_cap g) by (split; [apply (f_equal (fun o => match o with Ok x => dg_cells x | _ => [] end)) in E; symmetry; exact E|apply (f_equal (fun o => match o with Ok x => dg_cap x | _ => 0 end)) in E; symmetry; exact E]). destruct RC as [RC RP]. clear E.
    stp H. stp H. assert (C4 : dg_cells r1 = cells_after s1 s2 (dg_cells g) /\ length (dg_cells r1) <= dg_cap g).
    { unfold cells_after. rewrite RC in E. destruct (dg_cells g) as [|c l] eqn:CG.
      - unfold push_cell in E. rewrite RC in E. cbn [length] in E. destruct (Nat.ltb_spec 0 (dg_cap r)); [|discriminate]. cbn [app] in E. unfold push_cell in E0.
        assert (r0 = mk_dg [new_cell s1] (dg_vertices r) (dg_edges r) (dg_cap r)) by congruence. subst r0. cbn [dg_cells dg_cap dg_vertices dg_edges length] in E0. destruct (Nat.ltb_spec 1 (dg_cap r)); [|discriminate].
        assert (r1 = mk_dg [new_cell s1; new_cell s2] (dg_vertices r) (dg_edges r) (dg_cap r)) by (cbn [app] in E0; congruence). subst r1. cbn. split; [reflexivity|lia].
      - assert (r0 = r) by congruence. subst r0. unfold push_cell in E0. rewrite RC in E0. destruct (Nat.ltb_spec (length (c :: l)) (dg_cap r)); [|discriminate].
        assert (r1 = mk_dg ((c :: l) ++ [new_cell s2]) (dg_vertices r) (dg_edges r) (dg_cap r)) by congruence. subst r1. cbn [dg_cells]. split; [reflexivity|]. rewrite app_length. cbn [length] in *. lia. }
    destruct C4 as [C4 C5]. rewrite C4 in C5. clear E E0. stp H. unfold cell_ptr in E. rewrite C4 in E. destruct (Nat.ltb_spec (e_sorted s1) (length (cells_after s1 s2 (dg_cells g)))) as [B3|]; [|discriminate].
    stp H. assert (C6 : dg_cells r3 = dg_cells r1) by (unfold on_edges in E0; destruct (assign _ _ _); cbn [obind] in E0; try discriminate; apply (f_equal (fun o => match o with Ok x => dg_cells x | _ => [] end)) in E0; symmetry; exact E0).
    clear E E0. stp H. unfold cell_ptr in E. rewrite C6, C4 in E. destruct (Nat.ltb_spec (e_sorted s2) (length (cells_after s1 s2 (dg_cells g)))) as [B4|]; [|discriminate]. repeat split; lia. }
  destruct B as [B1 [B2 [B3 B4]]]. pose proof (insert_site_edge_ok s1 s2 g B1 B2 B3 B4) as K. cbn zeta in K. rewrite K in H. exists (length (dg_edges g)).
  assert (G' : g' = mk_dg (cells_after s1 s2 (dg_cells g)) (dg_vertices g) (dg_edges g ++ pair_darts s1 s2 (length (dg_edges g))) (dg_cap g)) by congruence. subst g'.
  split; [congruence|]. split; [congruence|]. split; [reflexivity|]. cbn [dg_edges]. rewrite app_length. split; [reflexivity|].
  unfold cl, tn, fld. rewrite !nth_error_app2 by lia. replace (length (dg_edges g) + 1 - length (dg_edges g)) with 1 by lia. rewrite Nat.sub_diag. repeat split.
Qed.

(* ---------- C40: the diagram ---------- *)
(* The construction succeeds. Its result comes from the state at the end of the sweep
   as [built] says; if the vertices that coincide for the library come in groups and
   the edges between them form no cycle, the vertices are as [merged] says. *)
Theorem C40_construct G inputs sorted : inputs_ok inputs -> sorted_events inputs sorted -> no_return G ->
  exists st g' o, sweep_voronoi G inputs sorted = Ok st /\ construct_voronoi G inputs sorted = Ok g' /\ built (st_out st) g' o /\
    (let V := dg_vertices (st_out st) in let E := dg_edges (st_out st) in clustered V -> forest (short_edges V E (Nat.div2 (length E))) -> merged (st_out st) g' o).
Proof.
  intros OK SORT NR. destruct (sweep_ok G inputs sorted OK SORT) as [st E]. destruct (construct_ok G inputs sorted OK SORT st NR E) as [g' [o H]]. exists st, g', o. split; [exact E|exact H].
Qed.
(* Two vertices coincide for the library exactly if in each coordinate at most 128
   doubles lie in the half-open interval between them. *)
Definition within_ulps (u : Z) (a b : Z) : Prop :=
  exists l, NoDup l /\ (forall v, In v l <-> representable v /\ (Z.min (fval a) (fval b) < v <= Z.max (fval a) (fval b))%Z) /\ (Z.of_nat (length l) <= u)%Z.
Lemma ulp_within u a b : finite a -> finite b -> (0 <= u)%Z -> (ulp_comparison a b u = 0%Z <-> within_ulps u a b).
Proof.
  intros A B U. destruct (C36_equal a b u A B U) as [l [N [I E]]]. rewrite E. split; [intros H; exists l; tauto|]. intros [l' [N' [I' L]]].
  assert (length l <= length l') by (apply NoDup_incl_length; [exact N|intros x X; apply I', I; exact X]). lia.
Qed.
Theorem C40_same_vertex v w : finite (v_x v) -> finite (v_y v) -> finite (v_x w) -> finite (v_y w) ->
  (vertex_same v w = true <-> within_ulps 128 (v_x v) (v_x w) /\ within_ulps 128 (v_y v) (v_y w)).
Proof. intros A B C D. unfold vertex_same. rewrite andb_true_iff, !Z.eqb_eq, !ulp_within by (assumption || lia). reflexivity. Qed.
(* A diagram with vertices is a consistent half-edge structure in which the boundary
   of every cell closes. *)
Theorem C40_diagram G inputs sorted g : inputs_ok inputs -> sorted_events inputs sorted -> no_return G -> construct_voronoi G inputs sorted = Ok g -> dg_vertices g <> [] ->
  half_edges (length (dg_cells g)) (dg_edges g) /\
  forall c a, nth_error (dg_cells g) c = Some a ->
    match c_incident a with
    | Some i => cl (dg_edges g) i = Some c /\ loops (nx (dg_edges g)) i
    | None => forall i, cl (dg_edges g) i <> Some c
    end.
Proof.
  intros OK SORT NR E NV. destruct (C40_construct G inputs sorted OK SORT NR) as [st [g' [o [_ [E' [B _]]]]]]. assert (g' = g) by congruence. subst g'. split; [apply (bt_edges _ _ _ B); congruence|].
  intros c a A. assert (L : c < length (dg_cells (st_out st))) by (rewrite <- (bt_ncells _ _ _ B); apply nth_error_Some; congruence). destruct (nth_error (dg_cells (st_out st)) c) as [a0|] eqn:A0; [|apply nth_error_None in A0; lia].
  destruct (bt_cells _ _ _ B c a0 A0) as [b [B1 [_ [_ B4]]]]. assert (b = a) by congruence. subst b. destruct (c_incident a) as [i|] eqn:CI; [|exact B4]. split; [exact B4|]. exact (bt_close _ _ _ B NV c a i A CI).
Qed.
(* Sites on a vertical line: n - 1 lines between consecutive sites, linked at infinity. *)
Definition input_on_x (x : Z) (g : input) : Prop := match g with In_point p => px p = x | In_segment p q => px p = x /\ px q = x end.
Theorem C40_vertical G inputs sorted x : inputs_ok inputs -> sorted_events inputs sorted -> (forall g, In g inputs -> input_on_x x g) -> 2 <= length (site_queue sorted) -> no_return G ->
  exists g, construct_voronoi G inputs sorted = Ok g /\ dg_vertices g = [] /\ length (dg_cells g) = length (site_queue sorted) /\ length (dg_edges g) = 2 * (length (site_queue sorted) - 1) /\
    half_edges (length (dg_cells g)) (dg_edges g) /\
    (forall j, j + 1 < length (site_queue sorted) -> cl (dg_edges g) (2 * j) = Some j /\ cl (dg_edges g) (2 * j + 1) = Some (j + 1) /\ tn (dg_edges g) (2 * j) = Some (2 * j + 1)) /\
    (forall i, i < length (dg_edges g) -> vx (dg_edges g) i = None /\ nx (dg_edges g) i <> None /\ pv (dg_edges g) i <> None).
Proof.
  intros OK SORT ONX L2 NR. assert (OV : on_vertical_line (site_queue sorted)).
  { exists x. intros s H. apply In_nth_error in H. destruct H as [i H]. destruct (queue_element inputs sorted SORT i s H) as [e [E1 ->]]. destruct (insert_names inputs 0 e E1) as [_ [j [g [_ [J [HS _]]]]]].
    specialize (ONX g (nth_error_In _ _ J)). cbn [set_sorted e_p0 e_p1]. change (e_p0 e) with (s_p0 (site_of e)). change (e_p1 e) with (s_p1 (site_of e)).
    destruct g as [p|p q]; cbn [has_site input_on_x] in *; [rewrite HS; split; exact ONX|]. destruct ONX. destruct HS as [->|[->|[[-> _]|[-> _]]]]; split; assumption. }
  destruct (line_sweep (site_queue sorted) G (reserved inputs) (NUM inputs sorted OK SORT) (CAP inputs sorted SORT) OV L2) as [st [E [I [NV LN]]]].
  destruct (construct_ok G inputs sorted OK SORT st NR E) as [g [o [EG [B M]]]]. pose proof (v_wf _ _ _ _ _ I) as W. pose proof (v_count _ _ _ _ _ I) as CT. rewrite NV in W, CT. cbn [length] in W, CT.
  destruct (sweep_end G inputs sorted OK SORT st E) as [_ [_ [CE _]]]. assert (LC : length (dg_cells (st_out st)) = length (site_queue sorted)) by (rewrite CE, map_length; reflexivity).
  assert (MG : merged (st_out st) g o).
  { apply M; rewrite NV; [intros a b c []|]. rewrite short_none. intros D1 u w D2 Q. destruct D1; discriminate. }
  rewrite <- LC in W. destruct (line_kept (st_out st) g o NV W B MG) as [LE [ID NV']]. exists g. rewrite (bt_ncells _ _ _ B), LC. split; [exact EG|]. split; [exact NV'|]. split; [reflexivity|]. split; [lia|].
  assert (CL : forall j, j + 1 < length (site_queue sorted) -> cl (dg_edges g) (2 * j) = Some j /\ cl (dg_edges g) (2 * j + 1) = Some (j + 1)).
  { intros j J. rewrite !(bt_cell _ _ _ B) by lia. rewrite !ID by lia. apply LN. lia. }
  split; [|split; [|exact (bt_lines _ _ _ B NV')]].
  - rewrite <- LC, <- (bt_ncells _ _ _ B). apply (bt_edges _ _ _ B). intros _ k K. rewrite (proj2 (CL k ltac:(lia))). replace (2 * k + 2) with (2 * (k + 1)) by lia. rewrite (proj1 (CL (k + 1) ltac:(lia))). reflexivity.
  - intros j J. destruct (CL j J) as [C1 C2]. split; [exact C1|]. split; [exact C2|]. destruct (bt_twin _ _ _ B (2 * j)) as [t [T1 [T2 T3]]]; [lia|]. rewrite !ID in T3 by lia. rewrite (w_tn _ _ _ W), tw_even in T3 by lia. congruence.
Qed.

(* ---------- C41: colours ---------- *)
Lemma u64_shift c : u64 (Z.shiftl c 5) = Z.shiftl (Z.land c (Z.ones 59)) 5.
Proof.
  unfold u64. change (2 ^ 64)%Z with (2 ^ 64)%Z. rewrite <- Z.land_ones by lia. apply Z.bits_inj'. intros n N. rewrite Z.land_spec, !Z.shiftl_spec, Z.land_spec by lia.
  destruct (Z.ltb_spec n 5). { rewrite !(Z.testbit_neg_r _ (n - 5)) by lia. reflexivity. }
  rewrite !Z.testbit_ones_nonneg by lia. f_equal. lia.
Qed.
Lemma low_bits c bits m : (0 <= m < 32)%Z -> Z.land (col_set c bits) m = Z.land bits m.
Proof.
  intros M. unfold col_set. rewrite u64_shift. apply Z.bits_inj'. intros n N. rewrite !Z.land_spec, Z.lor_spec, Z.land_spec, Z.shiftl_spec by lia. destruct (Z.ltb_spec n 5).
  - rewrite (Z.testbit_neg_r _ (n - 5)) by lia. change 31%Z with (Z.ones 5). rewrite Z.testbit_ones_nonneg by lia. destruct (Z.ltb_spec n 5); [|lia]. rewrite andb_true_r, orb_false_r. reflexivity.
  - assert (Z.testbit m n = false) by (destruct (Z.eq_dec m 0) as [->|]; [apply Z.testbit_0_l|apply Z.bits_above_log2; [lia|]; assert (Z.log2 m < 5)%Z by (apply Z.log2_lt_pow2; lia); lia]). rewrite H0, !andb_false_r. reflexivity.
Qed.
(* A colour of at most 59 bits reads back; of a longer one the low 59 bits do. *)
Theorem C41_read_back c bits : (0 <= c)%Z -> col_get (col_set c bits) = (c mod 2 ^ 59)%Z.
Proof.
  intros C. unfold col_get, col_set. rewrite u64_shift, Z.shiftr_lor, Z.shiftr_shiftl_l, Z.shiftl_0_r, Z.land_ones by lia.
  replace (Z.shiftr (Z.land bits 31) 5) with 0%Z; [reflexivity|]. symmetry. apply Z.bits_inj'. intros n N. rewrite Z.shiftr_spec, Z.land_spec, Z.testbit_0_l by lia. change 31%Z with (Z.ones 5). rewrite Z.testbit_ones_nonneg by lia. destruct (Z.ltb_spec (n + 5) 5); [lia|]. apply andb_false_r.
Qed.
Theorem C41_read_back_fits c bits : (0 <= c < 2 ^ 59)%Z -> col_get (col_set c bits) = c.
Proof. intros C. rewrite C41_read_back by lia. apply Z.mod_small. lia. Qed.
(* Whatever the colour, it changes nothing else. *)
Theorem C41_flags_kept c bits : is_linear (col_set c bits) = is_linear bits /\ is_curved (col_set c bits) = is_curved bits /\ is_primary (col_set c bits) = is_primary bits /\ is_secondary (col_set c bits) = is_secondary bits.
Proof. unfold is_linear, is_curved, is_primary, is_secondary. rewrite !low_bits by lia. repeat split. Qed.
Theorem C41_category_kept c bits : cell_category (col_set c bits) = cell_category bits /\ cell_contains_point (col_set c bits) = cell_contains_point bits /\ cell_contains_segment (col_set c bits) = cell_contains_segment bits.
Proof. unfold cell_contains_point, cell_contains_segment, cell_category. rewrite !low_bits by lia. repeat split. Qed.
(* a new cell or edge has colour 0 *)
Theorem C41_new_colour il ip s : (0 <= e_cat s < 32)%Z -> col_get (edge_bits il ip) = 0%Z /\ col_get (c_color (new_cell s)) = 0%Z.
Proof. intros H. split; [destruct il, ip; reflexivity|]. unfold col_get. cbn [new_cell c_color]. rewrite Z.shiftr_div_pow2 by lia. apply Z.div_small. exact H. Qed.
Theorem C41_long_colour_refuted : exists c bits, (0 <= c < 2 ^ 64)%Z /\ col_get (col_set c bits) <> c.
Proof. exists (2 ^ 59)%Z, 0%Z. vm_compute. split; [split; [discriminate|reflexivity]|discriminate]. Qed.

(* ---------- C49: the sweep ends and stays within the reserved memory ---------- *)
(* No reachable state is stuck: no null or stale pointer or iterator is used, and no
   vector grows beyond what was reserved. *)
Theorem C49_progress G inputs sorted st : inputs_ok inputs -> sorted_events inputs sorted -> reached G inputs sorted st -> finished st = false -> exists st', sweep_step G st = Ok st'.
Proof. intros OK SORT. apply (progress G inputs sorted OK SORT). Qed.
Inductive steps (G : geometry) : nat -> vst -> vst -> Prop :=
| steps_none st : steps G 0 st st
| steps_one n a b c : finished a = false -> sweep_step G a = Ok b -> steps G n b c -> steps G (S n) a c.
Lemma sweep_steps G : forall fuel a b, sweep fuel G a = Ok b -> exists n, n <= fuel /\ steps G n a b /\ finished b = true.
Proof.
  induction fuel as [|fuel IH]; intros a b E; cbn [sweep] in E; destruct (finished a) eqn:F; try discriminate.
  - assert (b = a) by congruence. subst b. exists 0. split; [lia|]. split; [constructor|exact F].
  - assert (b = a) by congruence. subst b. exists 0. split; [lia|]. split; [constructor|exact F].
  - destruct (sweep_step G a) as [a1| |] eqn:ST; cbn [obind] in E; try discriminate. destruct (IH a1 b E) as [n [N [S1 F1]]]. exists (S n). split; [lia|]. split; [econstructor; eassumption|exact F1].
Qed.
(* There are at most three events per site, whatever the geometry. *)
Theorem C49_terminates G inputs sorted : inputs_ok inputs -> sorted_events inputs sorted ->
  exists st0 n st, init_beach_line (site_queue sorted) (dg_reserve (reserved inputs)) = Ok st0 /\ n <= 3 * length (site_queue sorted) /\ steps G n st0 st /\ finished st = true /\ sweep_voronoi G inputs sorted = Ok st.
Proof.
  intros OK SORT. destruct (sweep_ok G inputs sorted OK SORT) as [st E]. pose proof E as E'. unfold sweep_voronoi, construct_sweep in E. destruct (init_beach_line _ _) as [st0| |] eqn:I; cbn [obind] in E; try discriminate.
  destruct (sweep_steps G _ _ _ E) as [n [N [S F]]]. exists st0, n, st. repeat split; assumption.
Qed.
(* n sites: at most 2n - 3 vertices, n - 1 edges more than vertices *)
Theorem C49_size G inputs sorted st : inputs_ok inputs -> sorted_events inputs sorted -> sweep_voronoi G inputs sorted = Ok st ->
  let n := length (site_queue sorted) in
  length (dg_cells (st_out st)) = n /\ length (dg_edges (st_out st)) = 2 * (n - 1) + 2 * length (dg_vertices (st_out st)) /\ length (dg_vertices (st_out st)) <= 2 * n - 3 /\ length (dg_edges (st_out st)) <= 6 * n - 8.
Proof.
  intros OK SORT E n. destruct (sweep_end G inputs sorted OK SORT st E) as [R [_ [C _]]]. destruct (reached_all G inputs sorted OK SORT st R) as [k [K [CK [_ [_ [_ [X Y]]]]]]].
  assert (LC : length (dg_cells (st_out st)) = n) by (rewrite C, map_length; reflexivity). assert (k = n) by (rewrite CK, map_length, firstn_length, (Nat.min_l k) in LC by exact K; exact LC). subst k. split; [exact LC|]. split; [exact X|]. destruct n as [|[|n']]; lia.
Qed.
(* no temporary bisector of a segment is left over *)
Theorem C49_no_pending G inputs sorted st : inputs_ok inputs -> sorted_events inputs sorted -> sweep_voronoi G inputs sorted = Ok st -> st_ends st = [].
Proof. intros OK SORT E. apply (sweep_end G inputs sorted OK SORT st E). Qed.

(* ---------- C50: cells and flags ---------- *)
(* The cells correspond to the places of the input sites, each once, in the order of
   the sweep. The source index and category of a cell name the input at its place.
   The flags of an edge are those of the places of its cell and its twin's cell. *)
Theorem C50_cells_and_flags G inputs sorted g : inputs_ok inputs -> sorted_events inputs sorted -> no_return G -> construct_voronoi G inputs sorted = Ok g ->
  exists places, places_of inputs places /\ cells_of inputs places (dg_cells g) /\ flags_of places (dg_edges g).
Proof.
  intros OK SORT NR E. destruct (C40_construct G inputs sorted OK SORT NR) as [st [g' [o [ES [E' [B _]]]]]]. assert (g' = g) by congruence. subst g'. exists (map site_of (site_queue sorted)).
  split; [exact (places_all inputs sorted OK SORT)|]. destruct (sweep_end G inputs sorted OK SORT st ES) as [R [_ [C _]]]. destruct (reached_all G inputs sorted OK SORT st R) as [k [_ [_ [_ [W [F _]]]]]]. split.
  - destruct (cells_all inputs sorted SORT (length (site_queue sorted))) as [L H]. rewrite !firstn_all2 in L, H by (rewrite ?map_length; lia). rewrite <- C in L, H. split; [rewrite (bt_ncells _ _ _ B); exact L|].
    intros c a p A P. destruct (nth_error (dg_cells (st_out st)) c) as [a0|] eqn:A0; [|apply nth_error_None in A0; rewrite <- (bt_ncells _ _ _ B) in A0; apply nth_error_None in A0; congruence].
    destruct (bt_cells _ _ _ B c a0 A0) as [b [B1 [B2 [B3 _]]]]. assert (b = a) by congruence. subst b. rewrite B2, B3. exact (H c a0 p A0 P).
  - intros i I. destruct (bt_twin _ _ _ B i I) as [t [T1 [T2 T3]]]. destruct (flagged_flags _ _ _ _ W F (o i) (bt_in _ _ _ B i I)) as [t0 [a [b [p [q [bits [X1 [X2 [X3 [X4 [X5 [X6 X7]]]]]]]]]]]].
    assert (t0 = o t) by congruence. subst t0. exists t, a, b, p, q, bits. rewrite (bt_cell _ _ _ B i I), (bt_cell _ _ _ B t T2), (bt_col _ _ _ B i I). repeat (split; [assumption|]). exact X7.
Qed.
(* without degenerate segments, contains_point and contains_segment tell the kind of the site *)
Definition proper (g : input) : Prop := match g with In_point _ => True | In_segment p q => p <> q end.
Theorem C50_contains inputs i cat a b : (forall g, In g inputs -> proper g) -> names inputs i cat a b ->
  (belongs cat 0 = true <-> a = b) /\ (belongs cat 1 = true <-> a <> b).
Proof.
  intros PR. unfold names. destruct (nth_error inputs i) as [[p|p q]|] eqn:N; intros H; [destruct H as [-> [-> ->]]| |destruct H].
  - split; split; intros H; [reflexivity|reflexivity|discriminate|congruence].
  - pose proof (PR _ (nth_error_In _ _ N)) as P. cbn [proper] in P. destruct H as [[-> [-> ->]]|[[-> [-> ->]]|[[-> [-> [-> _]]]|[-> [-> [-> _]]]]]]; split; split; intros H; try reflexivity; try discriminate; congruence.
Qed.
(* a degenerate segment may leave a point cell that claims to contain a segment *)
Theorem C50_degenerate_refuted : exists inputs sorted, inputs_ok inputs /\ sorted_events inputs sorted /\
  map (fun s => (e_p0 s, e_p1 s, belongs (e_cat s) 1)) (site_queue sorted) = [(mk_pt 1 1, mk_pt 1 1, true)].
Proof.
  exists [In_segment (mk_pt 1 1) (mk_pt 1 1)], [mk_sev (mk_pt 1 1) (mk_pt 1 1) 0 0 9 false; mk_sev (mk_pt 1 1) (mk_pt 1 1) 0 0 1 false; mk_sev (mk_pt 1 1) (mk_pt 1 1) 0 0 2 false].
  split; [|split; [split|]].
  - split; [apply Forall_forall; intros g IG; cbn in IG; repeat (destruct IG as [<-|IG]; [unfold input_int, pt_int, is_int, INT_MIN, INT_MAX; cbn [px py]; lia|]); destruct IG|]. intros g h s t [<-|[]] [<-|[]] [->|[->|[[-> N]|[-> N]]]] [->|[->|[[-> M]|[-> M]]]]; intros _ P; exfalso; apply P; reflexivity.
  - cbn. apply (Permutation_app_comm [_; _] [_]).
  - repeat constructor; unfold less; vm_compute; discriminate.
  - vm_compute. reflexivity.
Qed.

(* ---------- examples ---------- *)
(* four corners of a square, one of them twice: the two vertices at the centre coincide and the edge between them is removed *)
Definition exG : geometry := mk_geometry (fun l s => if (py (e_p0 s) =? 0)%Z then 0 else length l) (fun s c => (px (e_p0 s) <=? ci_lower c)%Z) (fun _ => 0)
  (fun s1 s2 s3 => if e_sorted s1 =? e_sorted s3 then None else Some (mk_circle 4607182418800017408 4607182418800017408 2)).
Definition exI : list input := [In_point (mk_pt 2 2); In_point (mk_pt 0 0); In_point (mk_pt 0 2); In_point (mk_pt 2 0); In_point (mk_pt 0 0)].
Definition exev (i : nat) (x y c : Z) : sev := mk_sev (mk_pt x y) (mk_pt x y) 0 i c false.
Definition exS : list sev := [exev 1 0 0 0; exev 4 0 0 0; exev 2 0 2 0; exev 3 2 0 0; exev 0 2 2 0].
Example ex_inputs : inputs_ok exI /\ sorted_events exI exS /\ no_return exG.
Proof.
  split; [|split; [split|]].
  - split; [apply Forall_forall; intros g IG; cbn in IG; repeat (destruct IG as [<-|IG]; [unfold input_int, pt_int, is_int, INT_MIN, INT_MAX; cbn [px py]; lia|]); destruct IG|]. intros g h s t G H S T _ N. exfalso. apply N. repeat (destruct G as [<-|G]; [cbn in S; rewrite S; reflexivity|]). destruct G.
  - cbn. apply NoDup_Permutation_bis; [repeat constructor; cbn; intuition congruence|cbn; lia|]. intros x X. cbn in *. tauto.
  - repeat constructor; unfold less; vm_compute; discriminate.
  - intros s1 s2 s3 c H _. unfold g_form, exG in H. destruct (Nat.eqb_spec (e_sorted s1) (e_sorted s3)); [discriminate|assumption].
Qed.
Example ex_square : exists st g, sweep_voronoi exG exI exS = Ok st /\ construct_voronoi exG exI exS = Ok g /\
  clustered (dg_vertices (st_out st)) /\ forest (short_edges (dg_vertices (st_out st)) (dg_edges (st_out st)) (Nat.div2 (length (dg_edges (st_out st))))) /\
  length (dg_vertices (st_out st)) = 2 /\ length (dg_edges (st_out st)) = 10 /\ length (dg_vertices g) = 1 /\ length (dg_edges g) = 8.
Proof.
  destruct (sweep_voronoi exG exI exS) as [st| |] eqn:E; [|vm_compute in E; discriminate|vm_compute in E; discriminate]. destruct (construct_voronoi exG exI exS) as [g| |] eqn:F; [|vm_compute in F; discriminate|vm_compute in F; discriminate].
  exists st, g. split; [reflexivity|]. split; [reflexivity|]. vm_compute in E, F. inversion E. inversion F. clear. cbn [st_out dg_vertices dg_edges length]. split; [|split; [|repeat split]].
  - intros a b c A B C _. cbn in A, B, C. destruct A as [<-|[<-|[]]], B as [<-|[<-|[]]], C as [<-|[<-|[]]]; reflexivity.
  - match goal with |- forest ?x => let y := eval vm_compute in x in change (forest y) end. intros D1 u w D2 Q. destruct D1 as [|a [|b D1]]; [|discriminate|discriminate]. intros J. apply joined_nil in J. inversion Q. congruence.
Qed.
(* a segment and a point: secondary and curved edges *)
Definition exG2 : geometry := mk_geometry (fun l s => length l) (fun s c => (px (e_p0 s) <=? ci_lower c)%Z) (fun _ => 0)
  (fun s1 s2 s3 => if e_sorted s1 =? e_sorted s3 then None else Some (mk_circle (4607182418800017408 + 4503599627370496 * Z.of_nat (e_sorted s2)) 4607182418800017408 (20 + Z.of_nat (e_sorted s2)))).
Definition exI2 : list input := [In_segment (mk_pt 4 0) (mk_pt 0 0); In_point (mk_pt 2 3)].
Definition exS2 : list sev := [exev 0 0 0 2; mk_sev (mk_pt 0 0) (mk_pt 4 0) 0 0 9 false; exev 1 2 3 0; exev 0 4 0 1].
Example ex_inputs2 : inputs_ok exI2 /\ sorted_events exI2 exS2 /\ no_return exG2 /\ forall g, In g exI2 -> proper g.
Proof.
  split; [|split; [split|split]].
  - split; [apply Forall_forall; intros g IG; cbn in IG; repeat (destruct IG as [<-|IG]; [unfold input_int, pt_int, is_int, INT_MIN, INT_MAX; cbn [px py]; lia|]); destruct IG|]. 
    assert (X : forall g s, In g exI2 -> has_site g s -> ~ is_point s -> s = mk_site (mk_pt 0 0) (mk_pt 4 0)).
    { intros g s [<-|[<-|[]]] S N; cbn in S; [|exfalso; apply N; rewrite S; reflexivity]. destruct S as [->|[->|[[-> S]|[-> _]]]]; [exfalso; apply N; reflexivity|exfalso; apply N; reflexivity| |reflexivity]. exfalso. destruct S as [S|[S _]]; cbn in S; discriminate. }
    intros g h s t G H S T _ NS NT _. rewrite (X g s G S NS), (X h t H T NT). reflexivity.
  - exact (Permutation_cons_append [exev 0 0 0 2; mk_sev (mk_pt 0 0) (mk_pt 4 0) 0 0 9 false; exev 1 2 3 0] (exev 0 4 0 1)).
  - repeat constructor; unfold less; vm_compute; discriminate.
  - intros s1 s2 s3 c H _. unfold g_form, exG, exG2 in H. destruct (Nat.eqb_spec (e_sorted s1) (e_sorted s3)); [discriminate|assumption].
  - intros g [<-|[<-|[]]]; [cbn; congruence|exact Logic.I].
Qed.
Example ex_segment : exists g, construct_voronoi exG2 exI2 exS2 = Ok g /\ length (dg_vertices g) = 2 /\ map d_color (dg_edges g) = [1; 1; 3; 3; 3; 3; 2; 2; 3; 3]%Z /\ map c_color (dg_cells g) = [2; 9; 0; 1]%Z /\ map c_source (dg_cells g) = [0; 0; 1; 0].
Proof. vm_compute. eexists. split; [reflexivity|]. repeat split. Qed.
(* three points on a vertical line *)
Example ex_vertical : inputs_ok [In_point (mk_pt 1 0); In_point (mk_pt 1 5); In_point (mk_pt 1 2)] /\ sorted_events [In_point (mk_pt 1 0); In_point (mk_pt 1 5); In_point (mk_pt 1 2)] [exev 0 1 0 0; exev 2 1 2 0; exev 1 1 5 0].
Proof.
  split; [|split].
  - split; [apply Forall_forall; intros g IG; cbn in IG; repeat (destruct IG as [<-|IG]; [unfold input_int, pt_int, is_int, INT_MIN, INT_MAX; cbn [px py]; lia|]); destruct IG|]. intros g h s t G H S T _ N. exfalso. apply N. repeat (destruct G as [<-|G]; [cbn in S; rewrite S; reflexivity|]). destruct G.
  - cbn. apply NoDup_Permutation_bis; [repeat constructor; cbn; intuition congruence|cbn; lia|]. intros x X. cbn in *. tauto.
  - repeat constructor; unfold less; vm_compute; discriminate.
Qed.
(* the fields of a state in the middle of the sweep *)
Example ex_reached : exists st st', reached exG exI exS st /\ finished st = false /\ sweep_step exG st = Ok st' /\ finished st' = false.
Proof.
  destruct (init_beach_line (site_queue exS) (dg_reserve (reserved exI))) as [s0| |] eqn:E; [|vm_compute in E; discriminate|vm_compute in E; discriminate].
  destruct (sweep_step exG s0) as [s1| |] eqn:E1; [|vm_compute in E; inversion E; subst s0; vm_compute in E1; discriminate|vm_compute in E; inversion E; subst s0; vm_compute in E1; discriminate].
  exists s0, s1. split; [exact (reached_init _ _ _ _ E)|]. vm_compute in E. inversion E. subst s0. vm_compute in E1. inversion E1. vm_compute. repeat split.
Qed.
Example ex_colour : col_get (col_set 5 (edge_bits true false)) = 5%Z /\ is_linear (col_set 5 (edge_bits true false)) = true /\ cell_category (col_set 77 9) = 9%Z.
Proof. vm_compute. repeat split. Qed.

Print Assumptions C40_history.
Print Assumptions C40_event_stable.
Print Assumptions C40_new_edge.
Print Assumptions C40_construct.
Print Assumptions C40_diagram.
Print Assumptions C40_vertical.
Print Assumptions C41_read_back.
Print Assumptions C41_flags_kept.
Print Assumptions C41_category_kept.
Print Assumptions C49_progress.
Print Assumptions C49_terminates.
Print Assumptions C49_size.
Print Assumptions C50_cells_and_flags.
Print Assumptions C50_contains.

Print Assumptions C40_same_vertex.
Print Assumptions C41_read_back_fits.
Print Assumptions C41_new_colour.
Print Assumptions C41_long_colour_refuted.
Print Assumptions C49_no_pending.
Print Assumptions C50_degenerate_refuted.
