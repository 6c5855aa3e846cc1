(* The invariant of the sweep and its preservation. *)
From Coq Require Import Sorting.Permutation.
From Verif Require Import Base Units Outcome Poly90Model VorSpec VorModel GeoSpec VorProofs VDModel VDSpec VDMem VDInsert VDBeach.
Local Open Scope nat_scope.

(* the queue of sites after init_sites_queue: numbered in order, as inserted *)
Definition numbered (all : list sev) : Prop := forall i s, nth_error all i = Some s -> e_sorted s = i /\ e_inv s = false /\ sev_int s.
(* point sites come in lexicographic order and the end point of a segment comes later *)
Definition ordered (all : list sev) : Prop :=
  (forall i j s t, nth_error all i = Some s -> nth_error all j = Some t -> sev_segment s = false -> sev_segment t = false -> i < j -> point_before (e_p0 s) (e_p0 t) = true) /\
  (forall i s, nth_error all i = Some s -> sev_segment s = true -> exists j t, i < j /\ nth_error all j = Some t /\ sev_segment t = false /\ e_p0 t = e_p1 s).
(* the oracle forms no circle whose first and third site are the same *)
Definition no_return (G : geometry) : Prop :=
  forall s1 s2 s3 c, g_form G s1 s2 s3 = Some c -> circle_exists s1 s2 s3 = Ok true -> e_sorted s1 <> e_sorted s3.

Lemma seg_inverse s : sev_segment (sev_inverse s) = sev_segment s.
Proof. unfold sev_segment, sev_inverse. cbn. rewrite (Z.eqb_sym (px (e_p1 s))), (Z.eqb_sym (py (e_p1 s))). reflexivity. Qed.
Definition node_edge (n : node) : list nat := match n_edge n with Some d => [d] | None => [] end.
Definition edges_of (l : list node) : list nat := flat_map node_edge l.
Lemma edges_app a b : edges_of (a ++ b) = edges_of a ++ edges_of b. Proof. apply flat_map_app. Qed.
Lemma edges_mid a n b : edges_of (a ++ n :: b) = edges_of a ++ node_edge n ++ edges_of b. Proof. rewrite edges_app. reflexivity. Qed.
Lemma in_edges n d l : In n l -> n_edge n = Some d -> In d (edges_of l).
Proof. intros H E. unfold edges_of. apply in_flat_map. exists n. split; [exact H|]. unfold node_edge. rewrite E. left. reflexivity. Qed.
Lemma in_edges_inv d l : In d (edges_of l) -> exists n, In n l /\ n_edge n = Some d.
Proof.
  unfold edges_of. rewrite in_flat_map. intros [n [H K]]. exists n. split; [exact H|]. unfold node_edge in K. destruct (n_edge n); [|destruct K]. destruct K as [->|[]]. reflexivity.
Qed.

Section Sweep.
Variables (all : list sev) (G : geometry) (cap : nat).
Hypothesis NUM : numbered all.
Hypothesis CAP : length all <= cap.

Definition genuine (k : nat) (s : sev) : Prop := exists s0, nth_error all (e_sorted s) = Some s0 /\ (s = s0 \/ s = sev_inverse s0) /\ e_sorted s < k.
Lemma genuine_lt k s : genuine k s -> e_sorted s < k. Proof. intros [s0 H]. tauto. Qed.
Lemma genuine_mono k s : genuine k s -> genuine (S k) s. Proof. intros [s0 [H1 [H2 H3]]]. exists s0. repeat split; [exact H1|exact H2|lia]. Qed.
Lemma genuine_inverse k s : genuine k s -> genuine k (sev_inverse s).
Proof.
  intros [s0 [H1 [H2 H3]]]. exists s0. cbn [e_sorted sev_inverse]. repeat split; [exact H1| |exact H3]. destruct H2 as [->| ->]; [right; reflexivity|left].
  destruct s0. unfold sev_inverse. cbn. rewrite negb_involutive. reflexivity.
Qed.
Lemma genuine_int k s : genuine k s -> sev_int s.
Proof. intros [s0 [H1 [H2 H3]]]. destruct (NUM _ _ H1) as [_ [_ [I1 I2]]]. destruct H2 as [->| ->]; split; assumption. Qed.
Lemma genuine_seg k j s t : genuine k s -> genuine j t -> e_sorted s = e_sorted t -> sev_segment s = sev_segment t.
Proof.
  intros [s0 [H1 [H2 H3]]] [t0 [K1 [K2 K3]]] E. rewrite E in H1. assert (s0 = t0) by congruence. subst t0.
  assert (sev_segment s = sev_segment s0) by (destruct H2 as [->| ->]; [reflexivity|apply seg_inverse]).
  assert (sev_segment t = sev_segment s0) by (destruct K2 as [->| ->]; [reflexivity|apply seg_inverse]). congruence.
Qed.
Lemma genuine_new k s : nth_error all k = Some s -> genuine (S k) s.
Proof. intros H. destruct (NUM _ _ H) as [E _]. exists s. rewrite E. repeat split; [exact H|left; reflexivity|lia]. Qed.
Lemma genuine_exists k s1 s2 s3 : genuine k s1 -> genuine k s2 -> genuine k s3 -> exists r, circle_exists s1 s2 s3 = Ok r.
Proof. intros H1 H2 H3. apply circle_exists_ok; eapply genuine_int; eassumption. Qed.

Definition node_ok (k : nat) (E : list dart) (n : node) : Prop :=
  genuine k (n_left n) /\ genuine k (n_right n) /\
  match n_edge n with
  | None => e_sorted (n_left n) = e_sorted (n_right n) /\ sev_segment (n_left n) = true
  | Some d => d < length E /\ pv E d = None /\ cl E d = Some (e_sorted (n_left n)) /\ cl E (tw d) = Some (e_sorted (n_right n))
  end.
Definition near (p : option node) (n : node) : Prop :=
  match p with
  | None => n_circle n = None
  | Some m => e_sorted (n_right m) = e_sorted (n_left n) /\
      (n_circle n <> None -> n_edge m <> None /\ n_edge n <> None /\ (no_return G -> e_sorted (n_left m) <> e_sorted (n_right n)))
  end.
Record inv (k : nat) (st : vst) : Prop := mk_inv {
  v_q : qinv st;
  v_k : 1 <= k <= length all;
  v_cells : dg_cells (st_out st) = if k =? 1 then [] else map new_cell (firstn k all);
  v_cap : dg_cap (st_out st) = cap;
  v_wf : wf k (length (dg_vertices (st_out st))) (dg_edges (st_out st));
  v_around : around3 (dg_edges (st_out st));
  v_apart : no_return G -> apart (dg_edges (st_out st));
  v_nodes : forall n, In n (st_beach st) -> node_ok k (dg_edges (st_out st)) n;
  v_link : linked near None (st_beach st);
  v_edges : NoDup (edges_of (st_beach st));
  v_ends : forall e, In e (st_ends st) -> exists n, In n (st_beach st) /\ n_id n = snd e /\ n_edge n = None;
  v_endnd : NoDup (map snd (st_ends st));
  v_temps : forall n, In n (st_beach st) -> n_edge n = None -> In (n_id n) (map snd (st_ends st));
  v_pend : ordered all -> forall e, In e (st_ends st) -> exists j t, k <= j /\ nth_error all j = Some t /\ sev_segment t = false /\ e_p0 t = fst e;
  v_count : length (dg_edges (st_out st)) = 2 * (k - 1) + 2 * length (dg_vertices (st_out st));
  v_room : length (edges_of (st_beach st)) + length (dg_vertices (st_out st)) <= 2 * (k - 1);
  v_some : 2 <= k -> edges_of (st_beach st) <> [];
  v_new : forall w, In w (dg_vertices (st_out st)) -> v_incident w = None;
  v_flags : flagged all (dg_edges (st_out st))
}.
Lemma inv_cells k st : inv k st -> 2 <= k -> length (dg_cells (st_out st)) = k.
Proof. intros I K2. rewrite (v_cells _ _ I). pose proof (v_k _ _ I). destruct (Nat.eqb_spec k 1); [lia|]. rewrite map_length, firstn_length. lia. Qed.

(* changing the circle event of one node *)
Lemma edges_set a n o b : edges_of (a ++ set_circle o n :: b) = edges_of (a ++ n :: b).
Proof. rewrite !edges_mid. reflexivity. Qed.
Lemma in_set a n o b x : In x (a ++ set_circle o n :: b) -> exists y, In y (a ++ n :: b) /\ n_id x = n_id y /\ n_left x = n_left y /\ n_right x = n_right y /\ n_edge x = n_edge y.
Proof.
  intros H. destruct (in_mid a b n _ x H) as [->|K]; [exists n; split; [apply in_elt|]; cbn; tauto|exists x; tauto].
Qed.
Lemma in_set_back a n o b y : In y (a ++ n :: b) -> exists x, In x (a ++ set_circle o n :: b) /\ n_id x = n_id y /\ n_left x = n_left y /\ n_right x = n_right y /\ n_edge x = n_edge y.
Proof.
  intros H. destruct (in_mid a b (set_circle o n) n y H) as [->|K]; [exists (set_circle o n); split; [apply in_elt|]; cbn; tauto|exists y; tauto].
Qed.
Lemma inv_circle k st st' a n b o : inv k st -> st_beach st = a ++ n :: b -> st_beach st' = a ++ set_circle o n :: b ->
  st_ends st' = st_ends st -> st_out st' = st_out st -> qinv st' -> near (last_of None a) (set_circle o n) -> inv k st'.
Proof.
  intros I B B' E O Q N. constructor; rewrite ?E, ?O; try exact Q.
  - exact (v_k _ _ I).
  - exact (v_cells _ _ I).
  - exact (v_cap _ _ I).
  - exact (v_wf _ _ I).
  - exact (v_around _ _ I).
  - exact (v_apart _ _ I).
  - rewrite B'. intros x X. apply in_set in X. destruct X as [y [Y [_ [E1 [E2 E3]]]]]. rewrite <- B in Y. pose proof (v_nodes _ _ I y Y) as K. unfold node_ok in *. rewrite E1, E2, E3. exact K.
  - pose proof (v_link _ _ I) as L. rewrite B in L. rewrite B'. apply linked_app in L. apply linked_app. destruct L as [L1 L2]. split; [exact L1|]. destruct L2 as [_ L3]. split; [exact N|]. destruct b; exact L3.
  - rewrite B', edges_set, <- B. exact (v_edges _ _ I).
  - intros e He. destruct (v_ends _ _ I e He) as [m [M1 [M2 M3]]]. rewrite B in M1. rewrite B'. apply (in_set_back a n o b) in M1. destruct M1 as [x [X [E1 [_ [_ E2]]]]].
    exists x. repeat split; [exact X|congruence|congruence].
  - exact (v_endnd _ _ I).
  - rewrite B'. intros x X XE. apply in_set in X. destruct X as [y [Y [E1 [_ [_ E2]]]]]. rewrite <- B in Y. rewrite E1. apply (v_temps _ _ I y Y). congruence.
  - exact (v_pend _ _ I).
  - exact (v_count _ _ I).
  - rewrite B', edges_set, <- B. exact (v_room _ _ I).
  - rewrite B', edges_set, <- B. exact (v_some _ _ I).
  - exact (v_new _ _ I).
  - exact (v_flags _ _ I).
Qed.
Lemma near_none p n : near p n -> near p (set_circle None n).
Proof. destruct p as [m|]; cbn; [|reflexivity]. intros [H _]. split; [exact H|congruence]. Qed.
Lemma near_weak p n : near p n -> match p with None => True | Some m => e_sorted (n_right m) = e_sorted (n_left n) end.
Proof. destruct p; cbn; tauto. Qed.
Lemma deactivate_inv k st a n b : inv k st -> st_beach st = a ++ n :: b ->
  exists st', deactivate_circle_event (n_id n) st = Ok st' /\ st_beach st' = a ++ set_circle None n :: b /\
    st_sites st' = st_sites st /\ st_ends st' = st_ends st /\ st_fresh st' = st_fresh st /\ st_out st' = st_out st /\ inv k st'.
Proof.
  intros I B. destruct (deactivate_eff a n b st (v_q _ _ I) B) as [st' [D [B' [S [E [F [O Q]]]]]]]. exists st'. do 6 (split; [assumption|]).
  apply (inv_circle k st st' a n b None I B B' E O Q). apply near_none. pose proof (v_link _ _ I) as L. rewrite B in L. apply linked_app in L. destruct L as [_ [L _]]. exact L.
Qed.
(* a circle event may be attached where the three sites come from adjacent nodes *)
Lemma near_active k E m n c s1 s2 s3 q : node_ok k E m -> node_ok k E n -> e_sorted (n_right m) = e_sorted (n_left n) ->
  genuine k s1 -> genuine k s2 -> genuine k s3 ->
  e_sorted s1 = e_sorted (n_left m) -> e_sorted s2 = e_sorted (n_left n) -> e_sorted s3 = e_sorted (n_right n) ->
  circle_exists s1 s2 s3 = Ok true -> g_form G s1 s2 s3 = Some c -> near (Some m) (set_circle (Some q) n).
Proof.
  intros [M1 [M2 M3]] [N1 [N2 N3]] L G1 G2 G3 E1 E2 E3 X F. cbn [near]. split; [exact L|]. intros _. cbn [set_circle n_edge n_right].
  split; [|split].
  - intros Z. rewrite Z in M3. destruct M3 as [M3 M4]. apply (circle_exists_12 s1 s2 s3); [| |congruence|exact X].
    + rewrite (genuine_seg k k s1 (n_left m)); assumption.
    + rewrite (genuine_seg k k s2 (n_left m)); [exact M4|assumption|assumption|congruence].
  - intros Z. rewrite Z in N3. destruct N3 as [N3 N4]. apply (circle_exists_23 s1 s2 s3); [| |congruence|exact X].
    + rewrite (genuine_seg k k s2 (n_left n)); assumption.
    + rewrite (genuine_seg k k s3 (n_left n)); [exact N4|assumption|assumption|congruence].
  - intros NR. rewrite <- E1, <- E3. exact (NR _ _ _ _ F X).
Qed.
Lemma activate_inv k st a m n b s1 s2 s3 : inv k st -> st_beach st = a ++ m :: n :: b -> n_circle n = None ->
  genuine k s1 -> genuine k s2 -> genuine k s3 ->
  e_sorted s1 = e_sorted (n_left m) -> e_sorted s2 = e_sorted (n_left n) -> e_sorted s3 = e_sorted (n_right n) ->
  exists st' o, activate_circle_event G s1 s2 s3 (n_id n) st = Ok st' /\ st_beach st' = a ++ m :: set_circle o n :: b /\
    st_sites st' = st_sites st /\ st_ends st' = st_ends st /\ st_out st' = st_out st /\ inv k st'.
Proof.
  intros I B C G1 G2 G3 E1 E2 E3. assert (B2 : st_beach st = (a ++ [m]) ++ n :: b) by (rewrite <- app_assoc; exact B).
  destruct (activate_eff G s1 s2 s3 (a ++ [m]) n b st (v_q _ _ I) B2 C (genuine_exists k s1 s2 s3 G1 G2 G3)) as [st' [o [A [B' [S [E [F [O [Q X]]]]]]]]].
  exists st', o. assert (B3 : st_beach st' = a ++ m :: set_circle o n :: b) by (rewrite B', <- app_assoc; reflexivity). do 5 (split; [assumption|]).
  apply (inv_circle k st st' (a ++ [m]) n b o I B2 B' E O Q). rewrite last_of_snoc.
  assert (L : e_sorted (n_right m) = e_sorted (n_left n)).
  { pose proof (v_link _ _ I) as L. rewrite B2 in L. apply linked_app in L. destruct L as [_ [L _]]. rewrite last_of_snoc in L. exact (proj1 L). }
  destruct o as [q|].
  - destruct X as [X1 [c X2]]; [discriminate|]. apply (near_active k (dg_edges (st_out st)) m n c s1 s2 s3 q); try assumption; apply (v_nodes _ _ I); rewrite B, in_app_iff; cbn; tauto.
  - cbn. split; [exact L|congruence].
Qed.

(* ---------- insert_new_arc ---------- *)
Definition head_id (b : list node) : option nat := match b with [] => None | r :: _ => Some (n_id r) end.
Lemma bl_insert_ok a b mid : NoDup (map n_id (a ++ b)) -> bl_insert (head_id b) mid (a ++ b) = Ok (a ++ mid ++ b).
Proof.
  intros N. destruct b as [|r b]; cbn [head_id bl_insert]; [rewrite !app_nil_r; reflexivity|]. rewrite (bl_split_nodup a r b N). reflexivity.
Qed.
Lemma nodup_insert {A : Type} (a m b : list A) : NoDup (a ++ b) -> NoDup m -> (forall x, In x m -> ~ In x (a ++ b)) -> NoDup (a ++ m ++ b).
Proof.
  intros H1 H2 H3. apply (Permutation_NoDup (l := m ++ (a ++ b))).
  - rewrite !app_assoc. apply Permutation_app_tail, Permutation_app_comm.
  - induction m as [|x m IH]; [exact H1|]. cbn [app]. apply NoDup_cons_iff in H2. destruct H2 as [H2 H4]. constructor; [|apply IH; [exact H4|intros y Y; apply H3; right; exact Y]].
    rewrite in_app_iff. intros [X|X]; [exact (H2 X)|]. apply (H3 x); [left; reflexivity|exact X].
Qed.
Lemma last_of_app p l r : last_of p (l ++ r) = last_of (last_of p l) r.
Proof.
  revert p. induction l as [|n l IH]; intros p; [reflexivity|]. cbn [app]. rewrite !last_of_cons. apply IH.
Qed.
Lemma firstn_S (l : list sev) : forall k ev, nth_error l k = Some ev -> firstn (S k) l = firstn k l ++ [ev].
Proof. induction l as [|x l IH]; intros [|k] ev N; cbn in N; try discriminate; [cbn; congruence|]. change (x :: firstn (S k) l = x :: (firstn k l ++ [ev])). f_equal. apply IH. exact N. Qed.
Lemma cells_after_eq k (st : vst) ev arc : inv k st -> nth_error all k = Some ev -> genuine k arc ->
  cells_after arc ev (dg_cells (st_out st)) = map new_cell (firstn (S k) all).
Proof.
  intros I N GA. rewrite (firstn_S all k ev N), map_app. cbn [map]. rewrite (v_cells _ _ I). pose proof (v_k _ _ I) as K. unfold cells_after. destruct (Nat.eqb_spec k 1) as [->|K1].
  - assert (E0 : e_sorted arc = 0) by (pose proof (genuine_lt _ _ GA); lia). destruct GA as [s0 [H1 [H2 H3]]]. rewrite E0 in H1. rewrite (firstn_S all 0 s0 H1). cbn [firstn map app].
    f_equal. destruct H2 as [->| ->]; reflexivity.
  - destruct (map new_cell (firstn k all)) eqn:D; [|reflexivity]. exfalso. apply (f_equal (@length vcell)) in D. rewrite map_length, firstn_length in D. cbn in D. lia.
Qed.
Lemma node_ok_pair k E V s1 s2 n : wf k V E -> node_ok k E n -> node_ok (S k) (E ++ pair_darts s1 s2 (length E)) n.
Proof.
  intros W [H1 [H2 H3]]. split; [apply genuine_mono; exact H1|]. split; [apply genuine_mono; exact H2|].
  destruct (n_edge n) as [d|]; [|exact H3]. destruct H3 as [D1 [D2 [D3 D4]]]. rewrite pair_length, pair_pv, !pair_cl.
  pose proof (tw_lt d _ (w_even _ _ _ W) D1) as T. destruct (Nat.ltb_spec d (length E)); [|lia]. destruct (Nat.ltb_spec (tw d) (length E)); [|lia]. repeat split; try assumption. lia.
Qed.
Lemma arc_inv k st a b ev arc2 mid fresh' ends' :
  let out' := mk_dg (map new_cell (firstn (S k) all)) (dg_vertices (st_out st)) (dg_edges (st_out st) ++ pair_darts arc2 ev (length (dg_edges (st_out st)))) (dg_cap (st_out st)) in
  inv k st -> st_beach st = a ++ b -> nth_error all k = Some ev -> genuine k arc2 ->
  NoDup (map n_id mid) -> (forall n, In n mid -> st_fresh st <= n_id n < fresh') -> st_fresh st <= fresh' -> circles mid = [] ->
  (forall n, In n mid -> node_ok (S k) (dg_edges out') n) ->
  linked near (last_of None a) mid -> linked near (last_of None (a ++ mid)) b ->
  NoDup (edges_of mid) -> (forall d, In d (edges_of mid) -> length (dg_edges (st_out st)) <= d) -> 1 <= length (edges_of mid) <= 2 ->
  (forall e, In e ends' -> In e (st_ends st) \/ (e_p1 ev = fst e /\ sev_segment ev = true /\ exists n, In n mid /\ n_id n = snd e /\ n_edge n = None)) ->
  (forall e, In e (st_ends st) -> In e ends') ->
  NoDup (map snd ends') -> (forall n, In n mid -> n_edge n = None -> In (n_id n) (map snd ends')) ->
  (sev_segment ev = false -> ordered all -> forall e, In e (st_ends st) -> fst e <> e_p0 ev) ->
  inv (S k) (mk_vst (st_sites st) (a ++ mid ++ b) (st_queue st) ends' fresh' out').
Proof.
  intros out' I B N GA ND LT FF CM OK L1 L2 EM1 EM2 EM3 EN EN2 EN3 EN4 PT. pose proof (v_q _ _ I) as Q.
  pose proof (genuine_new _ _ N) as GE. destruct (NUM _ _ N) as [SE _].
  assert (KL : k < length all) by (apply nth_error_Some; congruence).
  pose proof (v_k _ _ I) as K. pose proof (v_wf _ _ I) as W.
  assert (PW : wf (S k) (length (dg_vertices (st_out st))) (dg_edges out')).
  { apply (pair_wf k); [exact W|lia|pose proof (genuine_lt _ _ GA); lia|rewrite SE; lia]. }
  constructor; cbn [st_beach st_queue st_ends st_fresh st_out st_sites].
  - constructor; cbn [st_beach st_queue st_ends st_fresh st_out st_sites].
    + rewrite !map_app. apply nodup_insert.
      * rewrite <- map_app, <- B. exact (qi_ids _ Q).
      * exact ND.
      * intros x X Y. rewrite <- map_app, <- B in Y. apply in_map_iff in X, Y. destruct X as [n [X1 X2]], Y as [m [Y1 Y2]]. apply LT in X2. apply (qi_idlt _ Q) in Y2. lia.
    + intros n Hn. apply in_app_iff in Hn. rewrite in_app_iff in Hn. destruct Hn as [H|[H|H]].
      * assert (In n (st_beach st)) as H' by (rewrite B; apply in_app_iff; tauto). apply (qi_idlt _ Q) in H'. lia.
      * apply LT in H. lia.
      * assert (In n (st_beach st)) as H' by (rewrite B; apply in_app_iff; tauto). apply (qi_idlt _ Q) in H'. lia.
    + exact (qi_qids _ Q).
    + intros e He. apply (qi_qlt _ Q) in He. lia.
    + rewrite !circles_app, CM. cbn [app]. rewrite <- circles_app, <- B. exact (qi_perm _ Q).
  - lia.
  - destruct (Nat.eqb_spec (S k) 1); [lia|]. reflexivity.
  - exact (v_cap _ _ I).
  - exact PW.
  - apply pair_around; exact (v_around _ _ I).
  - intros NR. apply (pair_apart k (length (dg_vertices (st_out st)))); [exact W|exact (v_apart _ _ I NR)|]. pose proof (genuine_lt _ _ GA). lia.
  - intros n Hn. apply in_app_iff in Hn. rewrite in_app_iff in Hn. destruct Hn as [H|[H|H]]; [|exact (OK n H)|];
      (apply (node_ok_pair k _ (length (dg_vertices (st_out st)))); [exact W|apply (v_nodes _ _ I); rewrite B; apply in_app_iff; tauto]).
  - rewrite app_assoc. apply linked_app. split; [|exact L2]. apply linked_app. split; [|exact L1]. pose proof (v_link _ _ I) as L. rewrite B in L. apply linked_app in L. exact (proj1 L).
  - rewrite !edges_app. apply nodup_insert.
    + rewrite <- edges_app, <- B. exact (v_edges _ _ I).
    + exact EM1.
    + intros x X Y. rewrite <- edges_app, <- B in Y. apply in_edges_inv in Y. destruct Y as [n [Y1 Y2]]. pose proof (v_nodes _ _ I n Y1) as [_ [_ Y3]]. rewrite Y2 in Y3.
      apply EM2 in X. destruct Y3 as [Y3 _]. lia.
  - intros e He. destruct (EN e He) as [H|[_ [_ [n [H1 [H2 H3]]]]]].
    + destruct (v_ends _ _ I e H) as [n [H1 H2]]. exists n. split; [|exact H2]. rewrite B in H1. apply in_app_iff in H1. rewrite !in_app_iff. tauto.
    + exists n. rewrite !in_app_iff. tauto.
  - exact EN3.
  - intros n Hn NE. apply in_app_iff in Hn. rewrite in_app_iff in Hn.
    assert (OLD : In n (a ++ b) -> In (n_id n) (map snd ends')).
    { intros H. rewrite <- B in H. pose proof (v_temps _ _ I n H NE) as T. apply in_map_iff in T. destruct T as [e [T1 T2]]. apply in_map_iff. exists e. split; [exact T1|exact (EN2 e T2)]. }
    destruct Hn as [H|[H|H]]; [apply OLD, in_app_iff; tauto|exact (EN4 n H NE)|apply OLD, in_app_iff; tauto].
  - intros OR e He. destruct (EN e He) as [H|[H1 [H2 _]]].
    + destruct (v_pend _ _ I OR e H) as [j [t [J1 [J2 [J3 J4]]]]]. exists j, t. repeat split; try assumption.
      destruct (Nat.eq_dec j k) as [->|J]; [|lia]. assert (t = ev) by congruence. subst t. exfalso. apply (PT J3 OR e H). congruence.
    + destruct OR as [_ OR]. destruct (OR _ _ N H2) as [j [t [J1 [J2 [J3 J4]]]]]. exists j, t. repeat split; try assumption; congruence.
  - cbn [dg_edges out' dg_vertices]. rewrite app_length, (v_count _ _ I). cbn [length pair_darts]. lia.
  - rewrite !edges_app, !app_length. pose proof (v_room _ _ I) as R. rewrite B, edges_app, app_length in R. cbn [dg_vertices out']. lia.
  - intros _. rewrite !edges_app. intros X. apply (f_equal (@length nat)) in X. rewrite !app_length in X. cbn [length] in X. lia.
  - exact (v_new _ _ I).
  - destruct GA as [t1 [X1 [X2 _]]]. destruct GE as [t2 [Y1 [Y2 _]]]. apply (pair_flagged k (length (dg_vertices (st_out st))) (dg_edges (st_out st)) _ _ W all t1 t2); try assumption. exact (v_flags _ _ I).
Qed.
Definition flip (ev : sev) : sev := if sev_segment ev then sev_inverse ev else ev.
Lemma flip_sorted ev : e_sorted (flip ev) = e_sorted ev. Proof. unfold flip. destruct (sev_segment ev); reflexivity. Qed.
Lemma flip_genuine k ev : genuine k ev -> genuine k (flip ev). Proof. intros H. unfold flip. destruct (sev_segment ev); [apply genuine_inverse|]; exact H. Qed.
Lemma new_arc_inv k st a b ev arc1 arc2 : inv k st -> st_beach st = a ++ b -> nth_error all k = Some ev ->
  genuine k arc1 -> genuine k arc2 -> e_sorted arc1 = e_sorted arc2 ->
  match last_of None a with Some l => e_sorted (n_right l) = e_sorted arc1 | None => True end ->
  match b with r :: _ => e_sorted arc2 = e_sorted (n_left r) /\ n_circle r = None | [] => True end ->
  (sev_segment ev = false -> ordered all -> forall e, In e (st_ends st) -> fst e <> e_p0 ev) ->
  exists st' L mid R, insert_new_arc arc1 arc2 ev (head_id b) st = Ok (st', n_id L) /\ inv (S k) st' /\ st_beach st' = a ++ (L :: mid ++ [R]) ++ b /\
    n_left L = arc1 /\ n_right L = ev /\ n_circle L = None /\ n_left R = flip ev /\ n_right R = arc2 /\
    st_sites st' = st_sites st /\ length (edges_of (st_beach st')) = length (edges_of (st_beach st)) + 2.
Proof.
  intros I B N G1 G2 E12 LA RB PT. pose proof (v_q _ _ I) as Q. pose proof (genuine_new _ _ N) as GE. destruct (NUM _ _ N) as [SE _].
  assert (KL : k < length all) by (apply nth_error_Some; congruence). pose proof (v_k _ _ I) as K. pose proof (v_wf _ _ I) as W.
  pose proof (v_count _ _ I) as CT. pose proof (v_room _ _ I) as RM. pose proof (v_cap _ _ I) as CP.
  pose proof (cells_after_eq k st ev arc2 I N G2) as CA. set (n := length (dg_edges (st_out st))) in *.
  set (out' := mk_dg (map new_cell (firstn (S k) all)) (dg_vertices (st_out st)) (dg_edges (st_out st) ++ pair_darts arc2 ev n) (dg_cap (st_out st))).
  assert (LC : length (map new_cell (firstn (S k) all)) = S k) by (rewrite map_length, firstn_length; lia).
  assert (IE : insert_site_edge arc2 ev (st_out st) = Ok (out', (Some n, Some (n + 1)))).
  { unfold out'. rewrite <- CA. apply insert_site_edge_ok; rewrite ?CA, ?LC, ?CP; pose proof (genuine_lt _ _ G2); fold n; lia. }
  destruct (tw_end n (w_even _ _ _ W)) as [T1 T2].
  assert (OKL : forall id c, node_ok (S k) (dg_edges out') (mk_node id arc1 ev (Some n) c)).
  { intros id c. split; [apply genuine_mono; exact G1|]. split; [exact GE|]. cbn [n_edge n_left n_right out' dg_edges]. unfold n. rewrite pair_length, pair_pv, !pair_cl. fold n.
    rewrite Nat.ltb_irrefl, Nat.eqb_refl, T1. destruct (Nat.ltb_spec (n + 1) n); [lia|]. destruct (Nat.eqb_spec (n + 1) n); [lia|]. rewrite Nat.eqb_refl.
    split; [lia|]. split; [apply fld_none; fold n; lia|]. split; congruence. }
  assert (OKR : forall id c, node_ok (S k) (dg_edges out') (mk_node id (flip ev) arc2 (Some (n + 1)) c)).
  { intros id c. split; [apply flip_genuine; exact GE|]. split; [apply genuine_mono; exact G2|]. cbn [n_edge n_left n_right out' dg_edges]. rewrite flip_sorted. unfold n. rewrite pair_length, pair_pv, !pair_cl. fold n.
    rewrite T2, Nat.ltb_irrefl, Nat.eqb_refl. destruct (Nat.ltb_spec (n + 1) n); [lia|]. destruct (Nat.eqb_spec (n + 1) n); [lia|]. rewrite Nat.eqb_refl.
    split; [lia|]. split; [apply fld_none; fold n; lia|]. split; congruence. }
  set (i := st_fresh st).
  assert (LB : forall p id c, linked near (last_of p (a ++ [mk_node id (flip ev) arc2 (Some (n + 1)) c])) b).
  { intros p id c. rewrite last_of_snoc. destruct b as [|r b]; [exact Logic.I|]. pose proof (v_link _ _ I) as L. rewrite B in L. apply linked_app in L. destruct L as [_ [_ L]].
    split; [|exact L]. cbn. destruct RB as [RB1 RB2]. split; [exact RB1|]. rewrite RB2. congruence. }
  assert (NL : forall id, near (last_of None a) (mk_node id arc1 ev (Some n) None)).
  { intros id. destruct (last_of None a) as [l|]; cbn; [split; [exact LA|congruence]|reflexivity]. }
  assert (ELEN : forall l, edges_of l = [n; n + 1] -> length (edges_of (a ++ l ++ b)) = length (edges_of (st_beach st)) + 2).
  { intros l EL. rewrite B, !edges_app, EL, !app_length. cbn [length]. lia. }
  unfold insert_new_arc. rewrite IE. cbn [obind]. fold i. fold (flip ev).
  pose proof (qi_ids _ Q) as ND. rewrite B in ND |- *.
  destruct (sev_segment ev) eqn:SEG.
  - rewrite (bl_insert_ok a b _ ND). cbn [obind].
    set (L := mk_node (i + 2) arc1 ev (Some n) None). set (T := mk_node (i + 1) ev (sev_inverse ev) None None). set (R := mk_node i (flip ev) arc2 (Some (n + 1)) None).
    eexists _, L, [T], R. split; [reflexivity|]. split; [|repeat split; rewrite <- B; apply ELEN; reflexivity].
    apply (arc_inv k st a b ev arc2 [L; T; R] (i + 3)); try assumption.
    + cbn. repeat constructor; cbn; lia.
    + intros x [<-|[<-|[<-|[]]]]; cbn; lia.
    + lia.
    + reflexivity.
    + intros x [<-|[<-|[<-|[]]]]; [apply OKL| |apply OKR]. split; [exact GE|]. split; [apply genuine_inverse; exact GE|]. cbn. split; [reflexivity|exact SEG].
    + split; [apply NL|]. split; [cbn; split; [reflexivity|congruence]|]. split; [cbn; split; [rewrite flip_sorted; reflexivity|congruence]|exact Logic.I].
    + replace (a ++ [L; T; R]) with ((a ++ [L; T]) ++ [R]) by (rewrite <- app_assoc; reflexivity). rewrite last_of_snoc. rewrite <- (last_of_snoc None a R). apply LB.
    + cbn. repeat constructor; cbn; lia.
    + intros d. cbn. fold n. lia.
    + cbn. lia.
    + intros e [<-|H]; [right|left; exact H]. cbn. split; [reflexivity|]. split; [exact SEG|]. exists T. repeat split. right. left. reflexivity.
    + intros e H. right. exact H.
    + cbn. constructor; [|exact (v_endnd _ _ I)]. intros X. apply in_map_iff in X. destruct X as [e [X1 X2]]. destruct (v_ends _ _ I e X2) as [m [M1 [M2 _]]]. apply (qi_idlt _ Q) in M1. fold i in M1. lia.
    + intros x [<-|[<-|[<-|[]]]]; cbn; try discriminate. intros _. left. reflexivity.
    + intros X. congruence.
  - rewrite (bl_insert_ok a b _ ND). cbn [obind].
    set (L := mk_node (i + 1) arc1 ev (Some n) None). set (R := mk_node i (flip ev) arc2 (Some (n + 1)) None).
    eexists _, L, [], R. split; [reflexivity|]. split; [|repeat split; rewrite <- B; apply ELEN; reflexivity].
    apply (arc_inv k st a b ev arc2 [L; R] (i + 2)); try assumption.
    + cbn. repeat constructor; cbn; lia.
    + intros x [<-|[<-|[]]]; cbn; lia.
    + lia.
    + reflexivity.
    + intros x [<-|[<-|[]]]; [apply OKL|apply OKR].
    + split; [apply NL|]. split; [cbn; split; [rewrite flip_sorted; reflexivity|congruence]|exact Logic.I].
    + replace (a ++ [L; R]) with ((a ++ [L]) ++ [R]) by (rewrite <- app_assoc; reflexivity). rewrite last_of_snoc. rewrite <- (last_of_snoc None a R). apply LB.
    + cbn. repeat constructor; cbn; lia.
    + intros d. cbn. fold n. lia.
    + cbn. lia.
    + intros e H. left. exact H.
    + intros e H. exact H.
    + exact (v_endnd _ _ I).
    + intros x [<-|[<-|[]]]; cbn; discriminate.
    + intros _. exact (PT eq_refl).
Qed.

(* ---------- process_site_event ---------- *)
Lemma site_step_inv k st ev a b : inv k st -> 2 <= k -> st_beach st = a ++ b -> nth_error all k = Some ev ->
  (sev_segment ev = false -> ordered all -> forall e, In e (st_ends st) -> fst e <> e_p0 ev) ->
  exists st' a' b', site_step G ev (head_id b) st = Ok (st', head_id b') /\ inv (S k) st' /\ st_beach st' = a' ++ b' /\
    st_sites st' = st_sites st /\ length (edges_of (st_beach st')) = length (edges_of (st_beach st)) + 2.
Proof.
  intros I K2 B N PT. pose proof (v_q _ _ I) as Q. pose proof (genuine_new _ _ N) as GE. pose proof (qi_ids _ Q) as ND.
  unfold site_step. fold (flip ev). destruct b as [|r b]; cbn [head_id].
  - rewrite app_nil_r in B. rewrite B. destruct (split_last a) as [[a0 l]|] eqn:SL.
    2:{ exfalso. apply split_last_none in SL. rewrite SL in B. apply (v_some _ _ I K2). rewrite B. reflexivity. }
    apply split_last_some in SL. rewrite SL in B |- *. clear a SL. destruct (v_nodes _ _ I l) as [GL [GR _]]; [rewrite B; apply in_elt|].
    destruct (new_arc_inv k st (a0 ++ [l]) [] ev (n_right l) (n_right l)) as [st1 [L [mid [R [A [I1 [B1 [L1 [L2 [L3 [R1 [R2 [S1 ED]]]]]]]]]]]]]; try assumption; try reflexivity.
    all: try exact Logic.I. { rewrite app_nil_r. exact B. } { rewrite last_of_snoc. reflexivity. }
    cbn [head_id] in A. rewrite A. cbn [obind].
    assert (B1' : st_beach st1 = a0 ++ l :: L :: mid ++ [R]) by (rewrite B1, app_nil_r, <- app_assoc; reflexivity).
    destruct (activate_inv (S k) st1 a0 l L (mid ++ [R]) (n_left l) (n_right l) ev I1 B1' L3) as [st2 [o [A2 [B2 [S2 [E2 [O2 I2]]]]]]]; try assumption; try (apply genuine_mono; assumption); try congruence.
    rewrite A2. cbn [obind]. exists st2, (a0 ++ [l]), (set_circle o L :: mid ++ [R]). split; [reflexivity|]. split; [exact I2|].
    split; [rewrite B2, <- app_assoc; reflexivity|]. split; [congruence|]. rewrite B2. rewrite B1' in ED. rewrite B in ED. rewrite <- ED. rewrite !edges_app. reflexivity.
  - rewrite B in ND |- *. rewrite (bl_split_nodup a r b ND). destruct (v_nodes _ _ I r) as [GL [GR _]]; [rewrite B; apply in_elt|].
    pose proof (v_link _ _ I) as LK. rewrite B in LK. apply linked_app in LK. destruct LK as [_ [LK _]].
    destruct (split_last a) as [[a0 l]|] eqn:SL.
    + apply split_last_some in SL. subst a. rewrite last_of_snoc in LK. destruct LK as [LK _].
      destruct (v_nodes _ _ I l) as [HL [HR _]]; [rewrite B, <- app_assoc; apply in_elt|].
      destruct (deactivate_inv k st (a0 ++ [l]) r b I B) as [st0 [D0 [B0 [S0 [E0 [F0 [O0 I0]]]]]]]. rewrite D0. cbn [obind].
      destruct (new_arc_inv k st0 (a0 ++ [l]) (set_circle None r :: b) ev (n_right l) (n_left r)) as [st1 [L [mid [R [A [I1 [B1 [L1 [L2 [L3 [R1 [R2 [S1 ED]]]]]]]]]]]]]; try assumption.
      { rewrite last_of_snoc. reflexivity. } { split; reflexivity. } { rewrite E0. exact PT. }
      cbn [head_id set_circle n_id] in A. rewrite A. cbn [obind].
      assert (B1' : st_beach st1 = a0 ++ l :: L :: (mid ++ [R]) ++ set_circle None r :: b) by (rewrite B1, <- app_assoc; reflexivity).
      destruct (activate_inv (S k) st1 a0 l L ((mid ++ [R]) ++ set_circle None r :: b) (n_left l) (n_right l) ev I1 B1' L3) as [st2 [o [A2 [B2 [S2 [E2 [O2 I2]]]]]]]; try assumption; try (apply genuine_mono; assumption); try congruence.
      rewrite A2. cbn [obind].
      assert (B2' : st_beach st2 = (a0 ++ l :: set_circle o L :: mid) ++ R :: set_circle None r :: b) by (rewrite B2; rewrite <- !app_assoc; reflexivity).
      destruct (activate_inv (S k) st2 (a0 ++ l :: set_circle o L :: mid) R (set_circle None r) b (flip ev) (n_left r) (n_right r) I2 B2' eq_refl) as [st3 [o3 [A3 [B3 [S3 [E3 [O3 I3]]]]]]];
        try reflexivity; try (apply genuine_mono; assumption); try (apply flip_genuine; assumption); try congruence.
      cbn [set_circle n_id] in A3. rewrite A3. cbn [obind]. exists st3, (a0 ++ [l]), (set_circle o L :: mid ++ R :: set_circle o3 r :: b). split; [reflexivity|]. split; [exact I3|].
      split; [rewrite B3, <- !app_assoc; reflexivity|]. split; [congruence|].
      assert (X1 : edges_of (st_beach st3) = edges_of (st_beach st2)) by (rewrite B3, B2', !edges_app; reflexivity).
      assert (X2 : edges_of (st_beach st2) = edges_of (st_beach st1)) by (rewrite B2, B1', !edges_app; reflexivity).
      assert (X3 : edges_of (st_beach st0) = edges_of (st_beach st)) by (rewrite B0, B, !edges_app; reflexivity).
      rewrite <- B, X1, X2, ED, X3. reflexivity.
    + apply split_last_none in SL. subst a. cbn [app] in *. cbn in LK.
      destruct (new_arc_inv k st [] (r :: b) ev (n_left r) (n_left r)) as [st1 [L [mid [R [A [I1 [B1 [L1 [L2 [L3 [R1 [R2 [S1 ED]]]]]]]]]]]]]; try assumption; try reflexivity.
      all: try exact Logic.I. { split; [reflexivity|exact LK]. }
      cbn [head_id] in A. rewrite A. cbn [obind].
      assert (B1' : st_beach st1 = (L :: mid) ++ R :: r :: b) by (rewrite B1; cbn [app]; rewrite <- app_assoc; reflexivity).
      destruct (activate_inv (S k) st1 (L :: mid) R r b (flip ev) (n_left r) (n_right r) I1 B1' LK) as [st2 [o [A2 [B2 [S2 [E2 [O2 I2]]]]]]]; try reflexivity; try (apply genuine_mono; assumption); try (apply flip_genuine; assumption); try congruence.
      rewrite A2. cbn [obind]. exists st2, [], (L :: mid ++ R :: set_circle o r :: b). split; [reflexivity|]. split; [exact I2|]. split; [exact B2|]. split; [congruence|].
      rewrite B2. rewrite <- B, <- ED, B1'. rewrite !edges_app. reflexivity.
Qed.
Lemma site_steps_inv : forall evs k st a b, inv k st -> 2 <= k -> st_beach st = a ++ b ->
  (forall j s, nth_error evs j = Some s -> nth_error all (k + j) = Some s) -> (forall s, In s evs -> sev_segment s = true) ->
  exists st', site_steps G evs (head_id b) st = Ok st' /\ inv (k + length evs) st' /\ st_sites st' = st_sites st /\
    length (edges_of (st_beach st')) = length (edges_of (st_beach st)) + 2 * length evs.
Proof.
  induction evs as [|ev evs IH]; intros k st a b I K2 B N SG; cbn [site_steps length].
  - exists st. rewrite Nat.add_0_r. split; [reflexivity|]. split; [exact I|]. split; [reflexivity|lia].
  - assert (N0 : nth_error all k = Some ev) by (rewrite <- (Nat.add_0_r k); apply N; reflexivity).
    destruct (site_step_inv k st ev a b I K2 B N0) as [st1 [a' [b' [E1 [I1 [B1 [S1 L1]]]]]]].
    { intros X. rewrite (SG ev) in X by (left; reflexivity). discriminate. }
    rewrite E1. cbn [obind]. destruct (IH (S k) st1 a' b' I1 ltac:(lia) B1) as [st2 [E2 [I2 [S2 L2]]]].
    { intros j s Hj. rewrite Nat.add_succ_comm. apply N. exact Hj. } { intros s Hs. apply SG. right. exact Hs. }
    exists st2. split; [exact E2|]. replace (k + S (length evs)) with (S k + length evs) by lia. split; [exact I2|]. split; [congruence|lia].
Qed.

(* the temporary bisectors that end *)
Definition with_ends (l : list node) (ends : list (point * nat)) (st : vst) : vst :=
  mk_vst (st_sites st) l (st_queue st) ends (st_fresh st) (st_out st).
Lemma near_skip p t n : e_sorted (n_left t) = e_sorted (n_right t) -> n_edge t = None -> near p t -> near (Some t) n -> near p n.
Proof.
  intros E T P [N1 N2]. assert (C : n_circle n = None). { destruct (n_circle n) as [c|] eqn:C; [|reflexivity]. exfalso. destruct N2 as [N2 _]; [discriminate|]. exact (N2 T). }
  destruct p as [m|]; cbn in *; [|exact C]. split; [destruct P as [P _]; congruence|congruence].
Qed.
Lemma erase_one k st l e es : inv k (with_ends l (e :: es) st) ->
  exists l', bl_erase (snd e) l = Ok l' /\ inv k (with_ends l' es st) /\ edges_of l' = edges_of l.
Proof.
  intros I. pose proof (v_q _ _ I) as Q. destruct (v_ends _ _ I e) as [n [H1 [H2 H3]]]; [left; reflexivity|]. cbn [st_beach with_ends] in H1.
  apply in_split in H1. destruct H1 as [a [b H1]]. pose proof (qi_ids _ Q) as ND. cbn [st_beach with_ends] in ND. rewrite H1 in ND.
  pose proof (v_nodes _ _ I n) as NO. cbn [st_beach with_ends] in NO. destruct NO as [_ [_ NO]]; [rewrite H1; apply in_elt|]. rewrite H3 in NO. destruct NO as [NO1 NO2].
  pose proof (v_link _ _ I) as LK. cbn [st_beach with_ends] in LK. rewrite H1 in LK. apply linked_app in LK. destruct LK as [LK1 [LK2 LK3]].
  assert (CN : n_circle n = None).
  { destruct (n_circle n) as [c|] eqn:C; [|reflexivity]. exfalso. destruct (last_of None a) as [m|]; cbn in LK2; [|congruence]. destruct LK2 as [_ LK2]. destruct LK2 as [_ [LK2 _]]; [congruence|]. exact (LK2 H3). }
  assert (EE : edges_of (a ++ b) = edges_of l) by (rewrite H1, edges_mid, edges_app; unfold node_edge; rewrite H3; reflexivity).
  assert (IN : forall x, In x (a ++ b) -> In x l) by (intros x; rewrite H1, !in_app_iff; cbn [In]; tauto).
  assert (IN2 : forall x, In x l -> n_id x <> snd e -> In x (a ++ b)).
  { intros x. rewrite H1, !in_app_iff. cbn [In]. intros [X|[X|X]] Y; [tauto| |tauto]. congruence. }
  rewrite map_app in ND. cbn [map] in ND. apply nodup_mid in ND. destruct ND as [ND1 [ND2 ND3]]. rewrite <- map_app in ND3.
  exists (a ++ b). split.
  { unfold bl_erase. rewrite H1, <- H2, bl_split_at by exact ND1. reflexivity. }
  split; [|exact EE]. constructor; cbn [st_beach st_ends st_queue st_fresh st_out st_sites with_ends].
  - constructor; cbn [st_beach st_ends st_queue st_fresh st_out st_sites with_ends].
    + exact ND3.
    + intros x X. apply (qi_idlt _ Q). cbn. apply IN. exact X.
    + exact (qi_qids _ Q).
    + exact (qi_qlt _ Q).
    + pose proof (qi_perm _ Q) as P. cbn [st_beach st_queue with_ends] in P. rewrite H1, circles_mid in P. unfold node_circle in P. rewrite CN in P. rewrite circles_app. exact P.
  - exact (v_k _ _ I).
  - exact (v_cells _ _ I).
  - exact (v_cap _ _ I).
  - exact (v_wf _ _ I).
  - exact (v_around _ _ I).
  - exact (v_apart _ _ I).
  - intros x X. apply (v_nodes _ _ I). apply IN. exact X.
  - apply linked_app. split; [exact LK1|]. destruct b as [|m b]; [exact Logic.I|]. destruct LK3 as [LK3 LK4]. split; [|exact LK4]. exact (near_skip _ n m NO1 H3 LK2 LK3).
  - rewrite EE. exact (v_edges _ _ I).
  - intros f F. destruct (v_ends _ _ I f) as [x [X1 [X2 X3]]]; [right; exact F|]. exists x. split; [|tauto]. apply IN2; [exact X1|]. rewrite X2. intros Y.
    pose proof (v_endnd _ _ I) as Z. cbn in Z. apply NoDup_cons_iff in Z. apply (proj1 Z). rewrite <- Y. apply in_map. exact F.
  - pose proof (v_endnd _ _ I) as Z. cbn in Z. apply NoDup_cons_iff in Z. exact (proj2 Z).
  - intros x X XE. pose proof (v_temps _ _ I x (IN x X) XE) as T. cbn in T. destruct T as [T|T]; [|exact T]. exfalso.
    apply (in_map n_id) in X. rewrite map_app in X. apply in_app_iff in X. rewrite <- T, <- H2 in X. tauto.
  - intros OR f F. apply (v_pend _ _ I OR). right. exact F.
  - exact (v_count _ _ I).
  - rewrite EE. exact (v_room _ _ I).
  - rewrite EE. exact (v_some _ _ I).
  - exact (v_new _ _ I).
  - exact (v_flags _ _ I).
Qed.
Lemma erase_all_inv k st es' : forall es l, inv k (with_ends l (es ++ es') st) ->
  exists l', erase_all (map snd es) l = Ok l' /\ inv k (with_ends l' es' st) /\ edges_of l' = edges_of l.
Proof.
  induction es as [|e es IH]; intros l I; cbn [map erase_all].
  - exists l. split; [reflexivity|]. split; [exact I|reflexivity].
  - destruct (erase_one k st l e (es ++ es') I) as [l1 [E1 [I1 D1]]]. rewrite E1. cbn [obind]. destruct (IH l1 I1) as [l2 [E2 [I2 D2]]]. exists l2. split; [exact E2|]. split; [exact I2|congruence].
Qed.
Lemma inv_ends_perm k st l es es' : Permutation es es' -> inv k (with_ends l es st) -> inv k (with_ends l es' st).
Proof.
  intros P I. constructor; cbn [st_beach st_ends st_queue st_fresh st_out st_sites with_ends]; try (first [exact (v_k _ _ I)|exact (v_cells _ _ I)|exact (v_cap _ _ I)|exact (v_wf _ _ I)|exact (v_around _ _ I)|exact (v_apart _ _ I)|
    exact (v_nodes _ _ I)|exact (v_link _ _ I)|exact (v_edges _ _ I)|exact (v_count _ _ I)|exact (v_room _ _ I)|exact (v_some _ _ I)|exact (v_new _ _ I)|exact (v_flags _ _ I)]).
  - pose proof (v_q _ _ I) as Q. constructor; [exact (qi_ids _ Q)|exact (qi_idlt _ Q)|exact (qi_qids _ Q)|exact (qi_qlt _ Q)|exact (qi_perm _ Q)].
  - intros e He. apply (v_ends _ _ I). exact (Permutation_in _ (Permutation_sym P) He).
  - apply (Permutation_NoDup (Permutation_map snd P)). exact (v_endnd _ _ I).
  - intros n Hn E. apply (Permutation_in _ (Permutation_map snd P)). exact (v_temps _ _ I n Hn E).
  - intros OR e He. apply (v_pend _ _ I OR). exact (Permutation_in _ (Permutation_sym P) He).
Qed.
Lemma filter_perm {A : Type} (f : A -> bool) l : Permutation l (filter f l ++ filter (fun x => negb (f x)) l).
Proof.
  induction l as [|x l IH]; [constructor|]. cbn [filter]. destruct (f x); cbn [negb app]; [apply perm_skip; exact IH|]. rewrite <- Permutation_middle. apply perm_skip. exact IH.
Qed.
Lemma ended_perm p ends : Permutation ends (ended p ends ++ not_ended p ends).
Proof. unfold ended, not_ended. destruct (existsb _ ends); [reflexivity|apply filter_perm]. Qed.
Lemma point_before_lex p q : point_before p q = true <-> lex_before p q.
Proof. unfold point_before, lex_before. destruct (px p =? px q)%Z eqn:E; lia. Qed.
Lemma not_ended_other k st s : inv k st -> ordered all -> nth_error all k = Some s -> sev_segment s = false ->
  forall e, In e (not_ended (e_p0 s) (st_ends st)) -> fst e <> e_p0 s.
Proof.
  intros I OR N SS e. unfold not_ended.
  destruct (existsb (fun e => point_before (fst e) (e_p0 s)) (st_ends st)) eqn:X.
  - exfalso. apply existsb_exists in X. destruct X as [f [F1 F2]]. destruct (v_pend _ _ I OR f F1) as [j [t [J1 [J2 [J3 J4]]]]].
    apply point_before_lex in F2. rewrite <- J4 in F2. destruct (Nat.eq_dec j k) as [->|J].
    + assert (t = s) by congruence. subst t. unfold lex_before in F2. lia.
    + destruct OR as [OR _]. pose proof (OR k j s t N J2 SS J3 ltac:(lia)) as Y. apply point_before_lex in Y. unfold lex_before in *. lia.
  - intros H. apply filter_In in H. destruct H as [_ H]. intros Y. rewrite Y in H. unfold pt_eqb in H. rewrite !Z.eqb_refl in H. discriminate.
Qed.
Lemma same_start_spec p : forall l a b, same_start p l = (a, b) -> l = a ++ b /\ forall s, In s a -> sev_segment s = true.
Proof.
  induction l as [|s l IH]; intros a b H; cbn [same_start] in H.
  - assert (a = [] /\ b = []) as [-> ->] by (split; congruence). split; [reflexivity|intros s []].
  - destruct (sev_segment s && pt_eqb (e_p0 s) p) eqn:C.
    + destruct (same_start p l) as [a' b'] eqn:E. destruct (IH _ _ eq_refl) as [I1 I2]. assert (a = s :: a' /\ b = b') as [-> ->] by (split; congruence).
      split; [rewrite I1; reflexivity|]. intros t [<-|T]; [apply andb_true_iff in C; tauto|exact (I2 t T)].
    + assert (a = [] /\ b = s :: l) as [-> ->] by (split; congruence). split; [reflexivity|intros t []].
Qed.
Lemma it_at_head l i : it_at l i = head_id (skipn i l).
Proof. revert i. induction l as [|n l IH]; intros [|i]; try reflexivity. cbn. exact (IH i). Qed.
Lemma skipn_nth {A : Type} (l : list A) k s rest : skipn k l = s :: rest -> nth_error l k = Some s /\ rest = skipn (S k) l.
Proof. revert k. induction l as [|x l IH]; intros [|k] H; cbn in H; try discriminate; [split; [cbn; congruence|cbn; congruence]|]. exact (IH k H). Qed.
Lemma skipn_mid {A : Type} (l : list A) k a b : skipn k l = a ++ b -> skipn (k + length a) l = b /\ forall j s, nth_error a j = Some s -> nth_error l (k + j) = Some s.
Proof.
  revert k. induction a as [|x a IH]; intros k H.
  - rewrite Nat.add_0_r. split; [exact H|]. intros [|j] s; discriminate.
  - cbn [app] in H. apply skipn_nth in H. destruct H as [H1 H2]. destruct (IH (S k) (eq_sym H2)) as [I1 I2]. cbn [length]. replace (k + S (length a)) with (S k + length a) by lia.
    split; [exact I1|]. intros [|j] s Hs; [rewrite Nat.add_0_r; cbn in Hs; congruence|]. cbn in Hs. rewrite <- Nat.add_succ_comm. exact (I2 j s Hs).
Qed.
Lemma inv_sites k st sites : inv k st -> inv k (mk_vst sites (st_beach st) (st_queue st) (st_ends st) (st_fresh st) (st_out st)).
Proof.
  intros I. pose proof (v_q _ _ I) as Q. constructor; cbn [st_beach st_ends st_queue st_fresh st_out st_sites]; try (first [exact (v_k _ _ I)|exact (v_cells _ _ I)|exact (v_cap _ _ I)|exact (v_wf _ _ I)|exact (v_around _ _ I)|exact (v_apart _ _ I)|
    exact (v_nodes _ _ I)|exact (v_link _ _ I)|exact (v_edges _ _ I)|exact (v_count _ _ I)|exact (v_room _ _ I)|exact (v_some _ _ I)|exact (v_new _ _ I)|exact (v_flags _ _ I)|exact (v_ends _ _ I)|exact (v_endnd _ _ I)|exact (v_temps _ _ I)|exact (v_pend _ _ I)]).
  constructor; [exact (qi_ids _ Q)|exact (qi_idlt _ Q)|exact (qi_qids _ Q)|exact (qi_qlt _ Q)|exact (qi_perm _ Q)].
Qed.
Lemma process_site_inv k st : inv k st -> 2 <= k -> st_sites st = skipn k all -> st_sites st <> [] ->
  exists k' st', process_site_event G st = Ok st' /\ inv k' st' /\ st_sites st' = skipn k' all /\ k < k' /\
    length (edges_of (st_beach st')) = length (edges_of (st_beach st)) + 2 * (k' - k).
Proof.
  intros I K2 S NE. unfold process_site_event. destruct (st_sites st) as [|s rest] eqn:ST; [congruence|]. symmetry in S. pose proof (skipn_nth _ _ _ _ S) as [N R].
  destruct (sev_segment s) eqn:SG; cbn [negb].
  - destruct (same_start (e_p0 s) rest) as [group rest'] eqn:SS. apply same_start_spec in SS. destruct SS as [SS1 SS2].
    pose proof (inv_sites k st rest' I) as I1. set (st1 := mk_vst rest' (st_beach st) (st_queue st) (st_ends st) (st_fresh st) (st_out st)) in *.
    rewrite SS1 in S. change (s :: group ++ rest') with ((s :: group) ++ rest') in S. apply skipn_mid in S. destruct S as [S1 S2].
    destruct (site_steps_inv (s :: group) k st1 (firstn (g_lower_bound G (st_beach st) s) (st_beach st)) (skipn (g_lower_bound G (st_beach st) s) (st_beach st)) I1 K2) as [st2 [E2 [I2 [T2 L2]]]].
    { symmetry. apply firstn_skipn. } { exact S2. } { intros t [<-|T]; [exact SG|exact (SS2 t T)]. }
    rewrite it_at_head, E2. exists (k + length (s :: group)), st2. split; [reflexivity|]. split; [exact I2|]. split; [rewrite T2; symmetry; exact S1|]. cbn [length] in *. split; [lia|]. rewrite L2. cbn [st1 st_beach]. lia.
  - assert (IE : inv k (with_ends (st_beach st) (ended (e_p0 s) (st_ends st) ++ not_ended (e_p0 s) (st_ends st)) st)).
    { apply (inv_ends_perm k st _ (st_ends st)); [apply ended_perm|]. unfold with_ends. apply inv_sites. exact I. }
    destruct (erase_all_inv k st _ _ _ IE) as [l [E1 [I1 D1]]]. rewrite E1. cbn [obind].
    pose proof (inv_sites k _ rest I1) as I2. cbn [with_ends st_beach st_queue st_ends st_fresh st_out] in I2.
    set (st1 := mk_vst rest l (st_queue st) (not_ended (e_p0 s) (st_ends st)) (st_fresh st) (st_out st)) in *.
    destruct (site_step_inv k st1 s (firstn (g_lower_bound G l s) l) (skipn (g_lower_bound G l s) l) I2 K2) as [st2 [a' [b' [E2 [I3 [B2 [S2 L2]]]]]]].
    { symmetry. apply firstn_skipn. } { exact N. } { intros _ OR. exact (not_ended_other k st s I OR N SG). }
    rewrite it_at_head. cbn [site_steps]. rewrite E2. cbn [obind]. exists (Datatypes.S k), st2. split; [reflexivity|]. split; [exact I3|]. split; [rewrite S2; exact R|]. split; [lia|].
    rewrite L2. cbn [st1 st_beach]. rewrite D1. lia.
Qed.

(* ---------- process_circle_event ---------- *)
Definition touch (o : option nat) (l : list node) : list node := match l with [] => [] | r :: t => set_circle o r :: t end.
Lemma touch_edges o l : edges_of (touch o l) = edges_of l. Proof. destruct l; reflexivity. Qed.
Lemma touch_ids o l : map n_id (touch o l) = map n_id l. Proof. destruct l; reflexivity. Qed.
Definition twin_node (x y : node) : Prop := n_id x = n_id y /\ n_left x = n_left y /\ n_right x = n_right y /\ n_edge x = n_edge y.
Lemma touch_in o l x : In x (touch o l) -> exists y, In y l /\ twin_node x y.
Proof. destruct l as [|r t]; cbn; [tauto|]. intros [<-|H]; [exists r|exists x]; repeat split; tauto. Qed.
Lemma touch_in_back o l x : In x l -> exists y, In y (touch o l) /\ twin_node y x.
Proof. destruct l as [|r t]; cbn; [tauto|]. intros [<-|H]; [exists (set_circle o r)|exists x]; repeat split; tauto. Qed.
Lemma node_ok_circ k V E s1 s3 a b x : wf k V E -> a < length E -> b < length E -> a <> b ->
  (forall d, n_edge x = Some d -> d <> a /\ d <> b) -> node_ok k E x -> node_ok k (circ_edges V E s1 s3 a b) x.
Proof.
  intros W LA LB AB D [H1 [H2 H3]]. split; [exact H1|]. split; [exact H2|]. destruct (n_edge x) as [d|]; [|exact H3]. destruct (D d eq_refl) as [DA DB]. destruct H3 as [D1 [D2 [D3 D4]]].
  rewrite circ_length, (circ_pv k) by assumption. rewrite !circ_cl. pose proof (tw_lt d _ (w_even _ _ _ W) D1) as T.
  destruct (Nat.ltb_spec d (length E)); [|lia]. destruct (Nat.ltb_spec (tw d) (length E)); [|lia].
  destruct (Nat.eqb_spec (length E + 1) d); [lia|]. destruct (Nat.eqb_spec b d); [congruence|]. destruct (Nat.eqb_spec a d); [congruence|]. repeat split; try assumption. lia.
Qed.
Lemma circle_struct k st st' pre m n post a b s3 c o1 o2 :
  let E := dg_edges (st_out st) in let V := length (dg_vertices (st_out st)) in
  let M := mk_node (n_id m) (n_left m) s3 (Some (length E)) o1 in
  inv k st -> st_beach st = pre ++ m :: n :: post -> n_circle n <> None -> n_edge m = Some a -> n_edge n = Some b ->
  genuine k s3 -> e_sorted s3 = e_sorted (n_right n) ->
  qinv st' -> st_beach st' = pre ++ M :: touch o2 post -> st_ends st' = st_ends st ->
  st_out st' = mk_dg (dg_cells (st_out st)) (dg_vertices (st_out st) ++ [mk_vvertex (ci_x c) (ci_y c) None 0]) (circ_edges V E (n_left m) s3 a b) (dg_cap (st_out st)) ->
  near (last_of None pre) M -> linked near (Some M) (touch o2 post) -> inv k st'.
Proof.
  intros E V M I B CN EM EN G3 E3 Q B' EE O NM LM.
  destruct (v_nodes _ _ I m) as [GM1 [GM2 GM3]]; [rewrite B; apply in_elt|]. rewrite EM in GM3. destruct GM3 as [A1 [A2 [A3 A4]]].
  destruct (v_nodes _ _ I n) as [GN1 [GN2 GN3]]; [rewrite B, in_app_iff; cbn; tauto|]. rewrite EN in GN3. destruct GN3 as [C1 [C2 [C3 C4]]].
  pose proof (v_wf _ _ I) as W. fold E V in W, A1, A2, A3, A4, C1, C2, C3, C4. pose proof (v_edges _ _ I) as ND. rewrite B, edges_app in ND.
  assert (EX : edges_of (m :: n :: post) = a :: b :: edges_of post) by (cbn; unfold node_edge; rewrite EM, EN; reflexivity). rewrite EX in ND.
  assert (LK : e_sorted (n_right m) = e_sorted (n_left n) /\ (no_return G -> e_sorted (n_left m) <> e_sorted (n_right n)) /\ linked near None pre).
  { pose proof (v_link _ _ I) as L. rewrite B in L. apply linked_app in L. destruct L as [L0 [_ [L _]]]. cbn in L. destruct L as [L1 L2]. destruct (L2 CN) as [_ [_ L3]]. tauto. }
  destruct LK as [LK1 [LK2 LK3]].
  apply nodup_mid in ND as ND1. destruct ND1 as [ND1 [ND2 ND3]]. apply nodup_mid in ND3 as ND4. destruct ND4 as [ND4 [ND5 ND6]].
  assert (AB : a <> b) by (intros X; apply ND2; left; congruence).
  assert (OTHER : forall x, In x pre \/ In x post -> node_ok k (circ_edges V E (n_left m) s3 a b) x).
  { intros x X. apply (node_ok_circ k); try assumption.
    - intros d D. assert (Y : In d (edges_of pre) \/ In d (edges_of post)) by (destruct X as [X|X]; [left|right]; exact (in_edges x d _ X D)).
      split; intros ->; cbn [In] in ND2; tauto.
    - apply (v_nodes _ _ I). rewrite B, in_app_iff. cbn. tauto. }
  assert (EB : edges_of (pre ++ M :: touch o2 post) = edges_of pre ++ length E :: edges_of post) by (rewrite edges_mid, touch_edges; reflexivity).
  assert (LEN : length (edges_of (st_beach st)) = length (edges_of (pre ++ M :: touch o2 post)) + 1) by (rewrite B, EB, edges_app, EX, !app_length; cbn [length]; lia).
  assert (OLD : forall d, In d (edges_of pre) \/ In d (edges_of post) -> d < length E).
  { intros d D. assert (In d (edges_of (st_beach st))) as D' by (rewrite B, edges_app, EX, in_app_iff; cbn; tauto). apply in_edges_inv in D'. destruct D' as [x [X1 X2]].
    destruct (v_nodes _ _ I x X1) as [_ [_ X3]]. rewrite X2 in X3. exact (proj1 X3). }
  constructor; rewrite ?EE; try exact Q; rewrite ?O; cbn [dg_cells dg_vertices dg_edges dg_cap].
  - exact (v_k _ _ I).
  - exact (v_cells _ _ I).
  - exact (v_cap _ _ I).
  - rewrite app_length. cbn [length]. fold V. apply circ_wf; try assumption; try congruence; [exact (genuine_lt _ _ GM1)|exact (genuine_lt _ _ G3)].
  - apply (circ_around k); try assumption; try congruence. exact (v_around _ _ I).
  - intros NR. apply (circ_apart k); try assumption; try congruence; [exact (v_apart _ _ I NR)|]. rewrite E3. exact (LK2 NR).
  - rewrite B'. intros x X. apply in_app_iff in X. destruct X as [X|[X|X]]; [apply OTHER; tauto| |].
    + subst x. split; [exact GM1|]. split; [exact G3|]. cbn [M n_edge n_left n_right]. rewrite circ_length, (circ_pv k) by assumption. rewrite !circ_cl.
      destruct (tw_end (length E) (w_even _ _ _ W)) as [T1 T2]. rewrite T1, Nat.ltb_irrefl, Nat.eqb_refl.
      destruct (Nat.eqb_spec (length E + 1) (length E)); [lia|]. destruct (Nat.eqb_spec b (length E)); [lia|]. destruct (Nat.eqb_spec a (length E)); [lia|].
      destruct (Nat.ltb_spec (length E + 1) (length E)); [lia|]. rewrite Nat.eqb_refl. split; [lia|]. split; [apply fld_none; lia|]. split; reflexivity.
    + apply touch_in in X. destruct X as [y [Y [Y1 [Y2 [Y3 Y4]]]]]. pose proof (OTHER y (or_intror Y)) as K. unfold node_ok in *. rewrite Y2, Y3, Y4. exact K.
  - rewrite B'. apply linked_app. split; [exact LK3|]. split; [exact NM|exact LM].
  - rewrite B', EB. apply NoDup_Add with (a := length E) (l := edges_of pre ++ edges_of post); [apply Add_app|]. split; [exact ND6|]. rewrite in_app_iff. intros X. apply OLD in X. lia.
  - intros e He. destruct (v_ends _ _ I e He) as [x [X1 [X2 X3]]]. rewrite B in X1. rewrite B'. apply in_app_iff in X1. destruct X1 as [X1|[X1|[X1|X1]]]; try congruence.
    + exists x. rewrite in_app_iff. tauto.
    + apply (touch_in_back o2) in X1. destruct X1 as [y [Y [Y1 [Y2 [Y3 Y4]]]]]. exists y. rewrite in_app_iff. cbn [In]. split; [tauto|]. split; congruence.
  - exact (v_endnd _ _ I).
  - rewrite B'. intros x X XE. apply in_app_iff in X. destruct X as [X|[X|X]].
    + apply (v_temps _ _ I x); [rewrite B, in_app_iff; tauto|exact XE].
    + subst x. discriminate.
    + apply touch_in in X. destruct X as [y [Y [Y1 [Y2 [Y3 Y4]]]]]. rewrite Y1. apply (v_temps _ _ I y); [rewrite B, in_app_iff; cbn; tauto|congruence].
  - exact (v_pend _ _ I).
  - rewrite circ_length, app_length. cbn [length]. pose proof (v_count _ _ I). fold E V in H |- *. lia.
  - rewrite B', app_length. cbn [length]. pose proof (v_room _ _ I) as H. fold V in H |- *. lia.
  - intros _. rewrite B', EB. intros X. apply (f_equal (@length nat)) in X. rewrite app_length in X. cbn [length] in X. lia.
  - intros y Y. apply in_app_iff in Y. destruct Y as [Y|[<-|[]]]; [exact (v_new _ _ I y Y)|reflexivity].
  - destruct GM1 as [t1 [X1 [X2 _]]]. destruct G3 as [t3 [Y1 [Y2 _]]]. apply (circ_flagged k V E) with (t1 := t1) (t3 := t3); try assumption. exact (v_flags _ _ I).
Qed.
Lemma last_of_some l z : last_of None l = Some z -> exists l', l = l' ++ [z] /\ split_last l = Some (l', z).
Proof. unfold last_of. destruct (split_last l) as [[l' y]|] eqn:S; [|discriminate]. intros H. assert (y = z) by congruence. subst y. exists l'. split; [exact (split_last_some _ _ _ S)|reflexivity]. Qed.
Lemma process_circle_inv k st e : inv k st -> nth_error (st_queue st) (top_index G (st_queue st)) = Some e -> q_active e = true ->
  exists st', process_circle_event G st = Ok st' /\ inv k st' /\ st_sites st' = st_sites st /\ length (edges_of (st_beach st)) = length (edges_of (st_beach st')) + 1.
Proof.
  intros I TOP ACT. pose proof (v_q _ _ I) as Q. unfold process_circle_event. rewrite TOP.
  destruct (remove_nth_split _ _ _ TOP) as [qa [qb [Q1 Q2]]]. rewrite Q2.
  assert (IC : In (q_node e, q_id e) (circles (st_beach st))).
  { apply (Permutation_in _ (Permutation_sym (qi_perm _ Q))). apply in_actives. exists e. repeat split; [|exact ACT]. rewrite Q1. apply in_elt. }
  apply in_circles in IC. destruct IC as [n [IN1 [IN2 IN3]]]. pose proof (qi_ids _ Q) as ND.
  destruct (bl_split_in _ _ n IN1 IN2 ND) as [pre0 [post SP]]. rewrite SP. apply bl_split_spec in SP. destruct SP as [B _].
  pose proof (v_link _ _ I) as LK. rewrite B in LK. apply linked_app in LK. destruct LK as [LK0 [LK1 LK2]].
  destruct (last_of None pre0) as [m|] eqn:LO; [|cbn in LK1; congruence]. apply last_of_some in LO. destruct LO as [pre [P1 P2]]. rewrite P2. subst pre0.
  destruct LK1 as [LK1 LK3]. destruct LK3 as [EM [EN NR]]; [congruence|]. apply linked_app in LK0. destruct LK0 as [LK0 [LK4 _]].
  destruct (n_edge m) as [a|] eqn:EMa; [clear EM|congruence]. destruct (n_edge n) as [b|] eqn:ENb; [clear EN|congruence].
  assert (B2 : st_beach st = pre ++ m :: n :: post) by (rewrite B, <- app_assoc; reflexivity).
  destruct (v_nodes _ _ I m) as [GM1 [GM2 GM3]]; [rewrite B2; apply in_elt|]. rewrite EMa in GM3. destruct GM3 as [A1 [A2 [A3 A4]]].
  destruct (v_nodes _ _ I n) as [GN1 [GN2 GN3]]; [exact IN1|]. rewrite ENb in GN3. destruct GN3 as [C1 [C2 [C3 C4]]].
  match goal with |- context [if ?c then sev_inverse (n_right n) else n_right n] => set (s3 := if c then sev_inverse (n_right n) else n_right n) end.
  assert (G3 : genuine k s3) by (unfold s3; destruct (_ && _); [apply genuine_inverse|]; exact GN2).
  assert (E3 : e_sorted s3 = e_sorted (n_right n)) by (unfold s3; destruct (_ && _); reflexivity).
  pose proof (v_k _ _ I) as K. pose proof (v_count _ _ I) as CT. pose proof (v_room _ _ I) as RM. pose proof (v_cap _ _ I) as CP. pose proof (v_wf _ _ I) as W.
  pose proof (v_edges _ _ I) as NE. rewrite B2, edges_app in NE.
  assert (EX : edges_of (m :: n :: post) = a :: b :: edges_of post) by (cbn; unfold node_edge; rewrite EMa, ENb; reflexivity). rewrite EX in NE.
  assert (AB : a <> b) by (apply nodup_mid in NE; cbn [In] in NE; intros X; subst b; tauto).
  assert (LEN : length (edges_of (st_beach st)) = length (edges_of pre) + S (S (length (edges_of post)))) by (rewrite B2, edges_app, EX, app_length; reflexivity).
  pose proof (inv_cells _ _ I ltac:(lia)) as LC.
  rewrite (insert_circle_edge_ok (n_left m) s3 (q_circle e) a b (st_out st) k W A1 C1 AB); [|pose proof (genuine_lt _ _ GM1); lia|pose proof (genuine_lt _ _ G3); lia|lia|lia].
  cbn [obind]. set (out' := mk_dg _ _ _ _). set (N := length (dg_edges (st_out st))) in *.
  set (M := mk_node (n_id m) (n_left m) s3 (Some N) (n_circle m)).
  set (st1 := mk_vst (st_sites st) (pre ++ M :: post) (qa ++ qb) (st_ends st) (st_fresh st) out').
  assert (QS : qinv st1).
  { constructor; cbn [st1 st_beach st_queue st_fresh].
    - rewrite (map_id_mid pre m M) by reflexivity. rewrite B2 in ND. rewrite map_app in ND |- *. cbn [map] in ND |- *. change (n_id m :: n_id n :: map n_id post) with ([n_id m] ++ n_id n :: map n_id post) in ND. rewrite app_assoc in ND. apply nodup_mid in ND. rewrite <- app_assoc in ND. cbn [app] in ND. tauto.
    - apply (mid_lt pre m M post); [reflexivity|]. intros x X. apply (qi_idlt _ Q). rewrite B2. rewrite in_app_iff in *. cbn [In] in *. tauto.
    - pose proof (qi_qids _ Q) as QN. rewrite Q1, map_app in QN. cbn [map] in QN. apply nodup_mid in QN. rewrite map_app. tauto.
    - intros f F. apply (qi_qlt _ Q). rewrite in_app_iff in F. rewrite Q1, in_app_iff. cbn [In]. tauto.
    - pose proof (qi_perm _ Q) as P. rewrite B2, Q1 in P. rewrite circles_app in P |- *. rewrite actives_app in P |- *. cbn [circles actives flat_map] in P |- *. fold (circles post) in P |- *. fold (actives qb) in P.
      assert (X1 : node_circle n = [(q_node e, q_id e)]) by (unfold node_circle; rewrite IN3, IN2; reflexivity).
      assert (X2 : ev_circle e = [(q_node e, q_id e)]) by (unfold ev_circle; rewrite ACT; reflexivity). rewrite X1, X2 in P. change (node_circle M) with (node_circle m). cbn [app] in P.
      apply (Permutation_cons_inv (a := (q_node e, q_id e))). rewrite (Permutation_middle (actives qa)), <- P. rewrite !app_assoc. apply Permutation_middle. }
  (* the left neighbour *)
  assert (STEP2 : exists st2 o1, match split_last pre with None => Ok st1 | Some (_, l) => try s <- deactivate_circle_event (n_id m) st1; activate_circle_event G (n_left l) (n_left m) s3 (n_id m) s end = Ok st2 /\
      qinv st2 /\ st_beach st2 = pre ++ set_circle o1 M :: post /\ st_sites st2 = st_sites st /\ st_ends st2 = st_ends st /\ st_out st2 = out' /\ near (last_of None pre) (set_circle o1 M)).
  { destruct (split_last pre) as [[pre' l]|] eqn:SL.
    - apply split_last_some in SL. subst pre. rewrite last_of_snoc in LK4 |- *. destruct LK4 as [LK4 _].
      destruct (deactivate_eff (pre' ++ [l]) M post st1 QS eq_refl) as [s [D1 [D2 [D3 [D4 [D5 [D6 D7]]]]]]]. cbn [M n_id] in D1. rewrite D1. cbn [obind].
      assert (GL : node_ok k (dg_edges (st_out st)) l) by (apply (v_nodes _ _ I); rewrite B2, <- app_assoc; apply in_elt).
      destruct (activate_eff G (n_left l) (n_left m) s3 (pre' ++ [l]) (set_circle None M) post s D7 D2 eq_refl) as [st2 [o1 [F1 [F2 [F3 [F4 [F5 [F6 [F7 F8]]]]]]]]].
      { apply (genuine_exists k); [exact (proj1 GL)|exact GM1|exact G3]. }
      cbn [M set_circle n_id] in F1. rewrite F1. exists st2, o1. split; [reflexivity|]. split; [exact F7|]. split; [exact F2|]. split; [rewrite F3; exact D3|]. split; [rewrite F4; exact D4|]. split; [rewrite F6; exact D6|].
      destruct o1 as [q|]; [|cbn; split; [exact LK4|congruence]]. destruct F8 as [X1 [c X2]]; [discriminate|].
      (* the new node as if it were in the old diagram *)
      cbn [near set_circle n_left n_right n_edge n_circle M]. split; [exact LK4|]. intros _. split; [|split; [discriminate|]].
      + intros Z. destruct GL as [GL1 [GL2 GL3]]. rewrite Z in GL3. destruct GL3 as [GL3 GL4]. apply (circle_exists_12 (n_left l) (n_left m) s3); [exact GL4| |congruence|exact X1].
        rewrite (genuine_seg k k (n_left m) (n_left l)); [exact GL4|assumption|assumption|congruence].
      + intros NRT. exact (NRT _ _ _ _ X2 X1).
    - apply split_last_none in SL. subst pre. exists st1, (n_circle m). split; [reflexivity|]. split; [exact QS|]. split; [reflexivity|]. split; [reflexivity|]. split; [reflexivity|]. split; [reflexivity|].
      exact LK4. }
  destruct STEP2 as [st2 [o1 [S1 [S2 [S3 [S4 [S5 [S6 S7]]]]]]]]. rewrite S1. cbn [obind]. clear S1.
  destruct post as [|r post].
  - exists st2. split; [reflexivity|]. split; [|split; [exact S4|rewrite LEN, S3, edges_mid, !app_length; cbn; lia]].
    apply (circle_struct k st st2 pre m n [] a b s3 (q_circle e) o1 None); try assumption; try congruence; try exact Logic.I.
  - assert (B3 : st_beach st2 = (pre ++ [set_circle o1 M]) ++ r :: post) by (rewrite S3, <- app_assoc; reflexivity).
    destruct (deactivate_eff _ r post st2 S2 B3) as [s [D1 [D2 [D3 [D4 [D5 [D6 D7]]]]]]]. rewrite D1. cbn [obind].
    assert (GR : node_ok k (dg_edges (st_out st)) r) by (apply (v_nodes _ _ I); rewrite B2, in_app_iff; cbn; tauto).
    destruct LK2 as [LKR LKP]. destruct LKR as [LKR _].
    destruct (activate_eff G (n_left m) s3 (n_right r) _ (set_circle None r) post s D7 D2 eq_refl) as [st3 [o2 [F1 [F2 [F3 [F4 [F5 [F6 [F7 F8]]]]]]]]].
    { apply (genuine_exists k); [exact GM1|exact G3|exact (proj1 (proj2 GR))]. }
    cbn [set_circle n_id] in F1. rewrite F1. exists st3. split; [reflexivity|].
    assert (B4 : st_beach st3 = pre ++ set_circle o1 M :: touch o2 (r :: post)) by (rewrite F2, <- app_assoc; reflexivity).
    split; [|split; [congruence|rewrite LEN, B4, edges_mid, touch_edges, !app_length; cbn [length node_edge set_circle M n_edge]; lia]].
    apply (circle_struct k st st3 pre m n (r :: post) a b s3 (q_circle e) o1 o2); try assumption; try congruence.
    { rewrite F6, D6, S6. reflexivity. }
    cbn [touch linked]. split; [|destruct post; exact LKP].
    destruct o2 as [q|]; [|cbn; split; [congruence|congruence]]. destruct F8 as [X1 [c X2]]; [discriminate|].
    cbn [near set_circle n_left n_right n_edge n_circle]. split; [congruence|]. intros _. split; [discriminate|]. split.
    + intros Z. destruct GR as [GR1 [GR2 GR3]]. rewrite Z in GR3. destruct GR3 as [GR3 GR4]. apply (circle_exists_23 (n_left m) s3 (n_right r)); [| |congruence|exact X1].
      * rewrite (genuine_seg k k s3 (n_left r)); [exact GR4|assumption|assumption|congruence].
      * rewrite (genuine_seg k k (n_right r) (n_left r)); [exact GR4|assumption|assumption|congruence].
    + intros NRT. exact (NRT _ _ _ _ X2 X1).
Qed.

(* ---------- init_beach_line ---------- *)
Lemma inv_start sites : 1 <= length all -> inv 1 (mk_vst sites [] [] [] 0 (dg_reserve cap)).
Proof.
  intros L. assert (F : forall (f : dart -> option nat) i, fld f [] i = None) by (intros f [|i]; reflexivity).
  constructor; cbn [st_beach st_ends st_queue st_fresh st_out st_sites dg_reserve dg_cells dg_vertices dg_edges dg_cap length]; try (intros; contradiction); try lia; try reflexivity; try (constructor; fail); try exact Logic.I.
  - constructor; cbn; try (intros; contradiction); try constructor.
  - constructor; cbn; try (intros; lia); try reflexivity; unfold vx, nx, pv; intros; rewrite F in *; discriminate.
  - intros i j v. unfold vx. rewrite F. discriminate.
  - intros _ i. cbn. lia.
  - intros i H. cbn in H. lia.
Qed.
Lemma coll_inv k st first second : inv k st -> nth_error all (k - 1) = Some first -> nth_error all k = Some second -> st_ends st = [] ->
  match last_of None (st_beach st) with Some l => e_sorted (n_right l) = e_sorted first | None => True end ->
  exists out' e2, insert_site_edge first second (st_out st) = Ok (out', (Some (length (dg_edges (st_out st))), e2)) /\
    dg_edges out' = dg_edges (st_out st) ++ pair_darts first second (length (dg_edges (st_out st))) /\
    inv (S k) (mk_vst (st_sites st) (st_beach st ++ [mk_node (st_fresh st) first second (Some (length (dg_edges (st_out st)))) None]) (st_queue st) (st_ends st) (S (st_fresh st)) out').
Proof.
  intros I N1 N2 EE LA. pose proof (v_k _ _ I) as K. pose proof (genuine_new _ _ N1) as G1. replace (S (k - 1)) with k in G1 by lia. pose proof (genuine_new _ _ N2) as G2.
  destruct (NUM _ _ N2) as [SE _]. assert (KL : k < length all) by (apply nth_error_Some; congruence). pose proof (v_wf _ _ I) as W.
  pose proof (v_count _ _ I) as CT. pose proof (v_room _ _ I) as RM. pose proof (v_cap _ _ I) as CP. pose proof (cells_after_eq k st second first I N2 G1) as CA.
  set (n := length (dg_edges (st_out st))) in *.
  set (out' := mk_dg (map new_cell (firstn (S k) all)) (dg_vertices (st_out st)) (dg_edges (st_out st) ++ pair_darts first second n) (dg_cap (st_out st))).
  assert (LC : length (map new_cell (firstn (S k) all)) = S k) by (rewrite map_length, firstn_length; lia).
  exists out', (Some (n + 1)). split.
  { unfold out'. rewrite <- CA. apply insert_site_edge_ok; rewrite ?CA, ?LC, ?CP; pose proof (genuine_lt _ _ G1); fold n; lia. }
  split; [reflexivity|].
  destruct (tw_end n (w_even _ _ _ W)) as [T1 T2].
  replace (st_beach st ++ [mk_node (st_fresh st) first second (Some n) None]) with (st_beach st ++ [mk_node (st_fresh st) first second (Some n) None] ++ []) by reflexivity.
  apply (arc_inv k st (st_beach st) [] second first); try assumption.
  - rewrite app_nil_r. reflexivity.
  - cbn. repeat constructor. tauto.
  - intros x [<-|[]]. cbn. lia.
  - lia.
  - reflexivity.
  - intros x [<-|[]]. split; [apply genuine_mono; exact G1|]. split; [exact G2|]. cbn [n_edge n_left n_right out' dg_edges]. unfold n. rewrite pair_length, pair_pv, !pair_cl. fold n.
    rewrite Nat.ltb_irrefl, Nat.eqb_refl, T1. destruct (Nat.ltb_spec (n + 1) n); [lia|]. destruct (Nat.eqb_spec (n + 1) n); [lia|]. rewrite Nat.eqb_refl.
    split; [lia|]. split; [apply fld_none; fold n; lia|]. split; congruence.
  - split; [|exact Logic.I]. destruct (last_of None (st_beach st)) as [l|]; cbn; [split; [exact LA|congruence]|reflexivity].
  - exact Logic.I.
  - cbn. repeat constructor. tauto.
  - intros d [<-|[]]. fold n. lia.
  - cbn. lia.
  - tauto.
  - tauto.
  - rewrite EE. constructor.
  - intros x [<-|[]]. discriminate.
  - rewrite EE. intros _ _ e [].
Qed.
Lemma init_collinear_inv : forall l k first st, inv k st -> nth_error all (k - 1) = Some first ->
  (forall j s, nth_error l j = Some s -> nth_error all (k + j) = Some s) -> st_ends st = [] ->
  match last_of None (st_beach st) with Some l => e_sorted (n_right l) = e_sorted first | None => True end ->
  exists st', init_collinear first l st = Ok st' /\ inv (k + length l) st' /\ st_sites st' = st_sites st /\ st_queue st' = st_queue st /\
    length (edges_of (st_beach st')) = length (edges_of (st_beach st)) + length l.
Proof.
  induction l as [|second l IH]; intros k first st I N NS EE LA; cbn [init_collinear length].
  - exists st. rewrite Nat.add_0_r. split; [reflexivity|]. split; [exact I|]. repeat split. lia.
  - assert (N2 : nth_error all k = Some second) by (rewrite <- (Nat.add_0_r k); apply NS; reflexivity).
    destruct (coll_inv k st first second I N N2 EE LA) as [out' [e2 [E1 [_ I1]]]]. rewrite E1. cbn [obind].
    match type of I1 with inv _ ?s => set (st1 := s) in * end.
    destruct (IH (S k) second st1 I1) as [st2 [E2 [I2 [S2 [Q2 L2]]]]].
    + cbn. rewrite Nat.sub_0_r. exact N2.
    + intros j s Hj. rewrite Nat.add_succ_comm. apply NS. exact Hj.
    + exact EE.
    + cbn [st1 st_beach]. rewrite last_of_snoc. reflexivity.
    + exists st2. split; [exact E2|]. replace (k + S (length l)) with (S k + length l) by lia. split; [exact I2|]. split; [exact S2|]. split; [exact Q2|].
      rewrite L2. cbn [st1 st_beach]. rewrite edges_app, app_length. cbn [edges_of flat_map node_edge n_edge app length]. lia.
Qed.
Lemma skip_vertical_spec x : forall l a b, skip_vertical x l = (a, b) -> l = a ++ b.
Proof.
  induction l as [|s l IH]; intros a b H; cbn [skip_vertical] in H.
  - assert (a = [] /\ b = []) as [-> ->] by (split; congruence). reflexivity.
  - destruct (_ && _).
    + destruct (skip_vertical x l) as [a' b']. assert (a = s :: a' /\ b = b') as [-> ->] by (split; congruence). rewrite (IH _ _ eq_refl). reflexivity.
    + assert (a = [] /\ b = s :: l) as [-> ->] by (split; congruence). reflexivity.
Qed.
Definition begins_vertical : Prop := match all with s :: _ => sev_vertical s = true | [] => True end.
Lemma init_inv : begins_vertical -> 2 <= length all ->
  exists k st, init_beach_line all (dg_reserve cap) = Ok st /\ inv k st /\ 2 <= k /\ st_sites st = skipn k all /\ st_queue st = [] /\
    3 * (length all - k) + length (edges_of (st_beach st)) <= 3 * length all.
Proof.
  intros BV L2. unfold begins_vertical in BV.
  assert (CASE : exists s t l, all = s :: t :: l) by (clear - L2; destruct all as [|s [|t l]]; cbn in L2; try lia; exists s, t, l; reflexivity).
  destruct CASE as [s [t [l EA]]]. rewrite EA in BV.
  assert (X : init_beach_line all (dg_reserve cap) = match skip_vertical (px (e_p0 s)) all with
      | ([_], second :: rest) => try ' (st, _) <- insert_new_arc s s second None (mk_vst rest [] [] [] 0 (dg_reserve cap)); Ok st
      | (first :: l, rest) => init_collinear first l (mk_vst rest [] [] [] 0 (dg_reserve cap))
      | _ => Undefined end) by (rewrite EA; reflexivity).
  rewrite X. clear X.
  destruct (skip_vertical (px (e_p0 s)) all) as [a b] eqn:SV. pose proof (skip_vertical_spec _ _ _ _ SV) as AB.
  assert (AS : exists a', a = s :: a').
  { rewrite EA in SV. cbn [skip_vertical] in SV. rewrite Z.eqb_refl, BV in SV. cbn [andb] in SV. destruct (if _ : bool then _ else _) as [a' b'] in SV. exists a'. congruence. }
  destruct AS as [a' AS]. assert (N0 : nth_error all 0 = Some s) by (rewrite EA; reflexivity).
  assert (NA : forall j u, nth_error a' j = Some u -> nth_error all (1 + j) = Some u).
  { intros j u Hj. rewrite AB, AS. cbn. rewrite nth_error_app1; [exact Hj|]. apply nth_error_Some. congruence. }
  assert (COLL : b = skipn (1 + length a') all) by (rewrite AB, AS; cbn; rewrite skipn_app, skipn_all, Nat.sub_diag; reflexivity).
  assert (LEN : length all = 1 + length a' + length b) by (rewrite AB, AS; cbn; rewrite app_length; reflexivity).
  assert (GO : forall sites, sites = b -> 2 <= 1 + length a' -> exists k st, init_collinear s a' (mk_vst sites [] [] [] 0 (dg_reserve cap)) = Ok st /\ inv k st /\ 2 <= k /\ st_sites st = skipn k all /\ st_queue st = [] /\
    3 * (length all - k) + length (edges_of (st_beach st)) <= 3 * length all).
  { intros sites SB LL. destruct (init_collinear_inv a' 1 s (mk_vst sites [] [] [] 0 (dg_reserve cap))) as [st [E1 [I1 [S1 [Q1 D1]]]]]; try reflexivity; try assumption; try exact Logic.I.
    - apply inv_start. lia.
    - exists (1 + length a'), st. split; [exact E1|]. split; [exact I1|]. split; [exact LL|]. split; [rewrite S1; cbn [st_sites]; rewrite SB; exact COLL|]. split; [exact Q1|]. rewrite D1. cbn [st_beach edges_of flat_map length]. lia. }
  rewrite AS. destruct a' as [|u a'].
  - destruct b as [|second rest]; [exfalso; cbn in LEN; rewrite LEN in L2; lia|].
    assert (N1 : nth_error all 1 = Some second) by (rewrite AB, AS; reflexivity).
    destruct (new_arc_inv 1 (mk_vst rest [] [] [] 0 (dg_reserve cap)) [] [] second s s) as [st' [L [mid [R [A [I1 [B1 [_ [_ [_ [_ [_ [S1 ED]]]]]]]]]]]]]; try reflexivity; try assumption; try exact Logic.I.
    + apply inv_start. lia.
    + exact (genuine_new 0 s N0).
    + exact (genuine_new 0 s N0).
    + intros _ _ e [].
    + cbn [head_id] in A. rewrite A. cbn [obind]. exists 2, st'. split; [reflexivity|]. split; [exact I1|]. split; [lia|].
      assert (QE : st_queue st' = []).
      { revert A. unfold insert_new_arc. cbn [st_out st_queue]. destruct (insert_site_edge _ _ _) as [[? [? ?]]| |]; cbn [obind]; try discriminate. destruct (sev_segment second); cbn [bl_insert obind]; intros A; assert (X : st_queue st' = []) by (match type of A with Ok (?x, _) = _ => assert (Y : x = st') by congruence; rewrite <- Y; reflexivity end); exact X. }
      split; [rewrite S1; cbn [st_sites]; rewrite AB, AS; reflexivity|]. split; [exact QE|]. rewrite ED. cbn [st_beach edges_of flat_map length]. lia.
  - apply GO; [reflexivity|cbn; lia].
Qed.

(* ---------- construct ---------- *)
Definition top_ok (st : vst) : Prop := st_queue st = [] \/ exists e, nth_error (st_queue st) (top_index G (st_queue st)) = Some e /\ q_active e = true.
Lemma inv_pop k st : inv k st -> let st' := with_queue (pop_inactive (length (st_queue st)) G (st_queue st)) st in inv k st' /\ top_ok st'.
Proof.
  intros I st'. pose proof (v_q _ _ I) as Q. destruct (pop_inactive_spec G (length (st_queue st)) (st_queue st) (le_n _)) as [P1 [P2 [P3 P4]]]. split; [|exact P4].
  constructor; cbn [st' with_queue st_beach st_ends st_queue st_fresh st_out st_sites]; try (first [exact (v_k _ _ I)|exact (v_cells _ _ I)|exact (v_cap _ _ I)|exact (v_wf _ _ I)|exact (v_around _ _ I)|exact (v_apart _ _ I)|
    exact (v_nodes _ _ I)|exact (v_link _ _ I)|exact (v_edges _ _ I)|exact (v_count _ _ I)|exact (v_room _ _ I)|exact (v_some _ _ I)|exact (v_new _ _ I)|exact (v_flags _ _ I)|exact (v_ends _ _ I)|exact (v_endnd _ _ I)|exact (v_temps _ _ I)|exact (v_pend _ _ I)]).
  constructor; cbn [st_beach st_queue st_fresh]; [exact (qi_ids _ Q)|exact (qi_idlt _ Q)|exact (P2 (qi_qids _ Q))| |].
  - intros e He. apply (qi_qlt _ Q). apply P3. exact He.
  - exact (eq_ind_r (fun x => Permutation (circles (st_beach st)) x) (qi_perm _ Q) P1).
Qed.
Lemma sweep_step_inv k st : inv k st -> 2 <= k -> st_sites st = skipn k all -> top_ok st -> finished st = false ->
  exists k' st', sweep_step G st = Ok st' /\ inv k' st' /\ 2 <= k' /\ st_sites st' = skipn k' all /\ top_ok st' /\
    3 * (length all - k') + length (edges_of (st_beach st')) < 3 * (length all - k) + length (edges_of (st_beach st)).
Proof.
  intros I K2 S T F. unfold sweep_step.
  assert (SITE : st_sites st <> [] -> exists k' st', (try st1 <- process_site_event G st; Ok (with_queue (pop_inactive (length (st_queue st1)) G (st_queue st1)) st1)) = Ok st' /\ inv k' st' /\ 2 <= k' /\ st_sites st' = skipn k' all /\ top_ok st' /\
    3 * (length all - k') + length (edges_of (st_beach st')) < 3 * (length all - k) + length (edges_of (st_beach st))).
  { intros NE. destruct (process_site_inv k st I K2 S NE) as [k' [st1 [E1 [I1 [S1 [KK L1]]]]]]. rewrite E1. cbn [obind]. destruct (inv_pop k' st1 I1) as [I2 T2]. exists k'. eexists. split; [reflexivity|]. split; [exact I2|]. split; [lia|]. split; [exact S1|]. split; [exact T2|].
    cbn [with_queue st_beach]. rewrite L1. pose proof (v_k _ _ I1). lia. }
  assert (CIRC : st_queue st <> [] -> exists k' st', (try st1 <- process_circle_event G st; Ok (with_queue (pop_inactive (length (st_queue st1)) G (st_queue st1)) st1)) = Ok st' /\ inv k' st' /\ 2 <= k' /\ st_sites st' = skipn k' all /\ top_ok st' /\
    3 * (length all - k') + length (edges_of (st_beach st')) < 3 * (length all - k) + length (edges_of (st_beach st))).
  { intros NE. destruct T as [T|[e [T1 T2]]]; [congruence|]. destruct (process_circle_inv k st e I T1 T2) as [st1 [E1 [I1 [S1 L1]]]]. rewrite E1. cbn [obind]. destruct (inv_pop k st1 I1) as [I2 T3]. exists k. eexists. split; [reflexivity|]. split; [exact I2|]. split; [lia|].
    split; [cbn [with_queue st_sites]; congruence|]. split; [exact T3|]. cbn [with_queue st_beach]. lia. }
  unfold finished in F. destruct (st_queue st) as [|q0 q] eqn:QE.
  - apply SITE. destruct (st_sites st); [discriminate|discriminate].
  - destruct (st_sites st) as [|s rest] eqn:SE; [apply CIRC; discriminate|]. destruct T as [T|[e [T1 T2]]]; [congruence|]. rewrite QE in T1. rewrite T1. destruct (g_site_first G s (q_circle e)); [apply SITE|apply CIRC]; discriminate.
Qed.
Lemma sweep_inv : forall fuel k st, inv k st -> 2 <= k -> st_sites st = skipn k all -> top_ok st -> 3 * (length all - k) + length (edges_of (st_beach st)) <= fuel ->
  exists st', sweep fuel G st = Ok st' /\ inv (length all) st' /\ finished st' = true.
Proof.
  induction fuel as [|fuel IH]; intros k st I K2 S T L; cbn [sweep]; destruct (finished st) eqn:F.
  2: { exfalso. assert (E : edges_of (st_beach st) = []) by (destruct (edges_of (st_beach st)); [reflexivity|cbn in L; lia]). exact (v_some _ _ I K2 E). }
  1, 2: exists st; split; [reflexivity|]; split; [|exact F]; unfold finished in F; destruct (st_queue st); [|discriminate]; destruct (st_sites st) eqn:SE; [|discriminate];
    assert (KL : length all <= k) by (pose proof (skipn_length k all) as X; rewrite <- S in X; cbn in X; lia); pose proof (v_k _ _ I); replace (length all) with k by lia; exact I.
  destruct (sweep_step_inv k st I K2 S T F) as [k' [st1 [E1 [I1 [K1 [S1 [T1 L1]]]]]]]. rewrite E1. cbn [obind]. apply (IH k'); try assumption. lia.
Qed.
Lemma construct_sweep_inv : begins_vertical -> 2 <= length all -> exists st, construct_sweep G cap all = Ok st /\ inv (length all) st /\ finished st = true.
Proof.
  intros BV L. unfold construct_sweep. destruct (init_inv BV L) as [k [st [E [I [K [S [Q D]]]]]]]. rewrite E. cbn [obind].
  destruct (sweep_inv (sweep_fuel all) k st I K S (or_introl Q) D) as [st' H]. exists st'. exact H.
Qed.
End Sweep.
