(* The invariant of the half-edge structure during the sweep, and its
   preservation by the two insertions of edges. *)
From Verif Require Import Base Units Outcome VorSpec VorModel VDModel VDSpec VDMem.
Local Open Scope nat_scope.

(* rot_next *)
Definition rot (E : list dart) (i : nat) : option nat := match pv E i with Some j => Some (tw j) | None => None end.

Record wf (C V : nat) (E : list dart) : Prop := mk_wf {
  w_even : Nat.even (length E) = true;
  w_tn : forall i, i < length E -> tn E i = Some (tw i);
  w_cl : forall i, i < length E -> exists c, cl E i = Some c /\ c < C;
  w_vx : forall i v, vx E i = Some v -> v < V;
  w_nx : forall i j, nx E i = Some j -> pv E j = Some i;
  w_pv : forall i j, pv E i = Some j -> nx E j = Some i;
  w_null : forall i, i < length E -> (vx E i = None <-> pv E i = None);
  w_null2 : forall i, i < length E -> (pv E i = None <-> nx E (tw i) = None);
  w_ncl : forall i j, nx E i = Some j -> cl E j = cl E i;
  w_nvx : forall i j, nx E i = Some j -> vx E j = vx E (tw i)
}.
(* the edges that start at the vertex of an edge are reached by rot_next *)
Definition around3 (E : list dart) : Prop := forall i j v, vx E i = Some v -> vx E j = Some v ->
  j = i \/ rot E i = Some j \/ exists k, rot E i = Some k /\ rot E k = Some j.
Definition apart (E : list dart) : Prop := forall i, i < length E -> cl E i <> cl E (tw i).
(* the flags of an edge are those of the two sites *)
Definition flagged (all : list sev) (E : list dart) : Prop := forall i, i < length E -> exists a b s t,
  cl E i = Some a /\ cl E (tw i) = Some b /\ nth_error all a = Some s /\ nth_error all b = Some t /\ col E i = Some (edge_bits (is_linear_edge s t) (is_primary_edge s t)).
Lemma primary_sym s t : is_primary_edge s t = is_primary_edge t s.
Proof.
  unfold is_primary_edge. destruct (sev_segment s), (sev_segment t); reflexivity.
Qed.
Lemma linear_sym s t : is_linear_edge s t = is_linear_edge t s.
Proof. unfold is_linear_edge. rewrite primary_sym, xorb_comm. reflexivity. Qed.
Lemma segment_inverse s : sev_segment (sev_inverse s) = sev_segment s.
Proof. unfold sev_segment, sev_inverse. cbn. rewrite (Z.eqb_sym (px (e_p1 s))), (Z.eqb_sym (py (e_p1 s))). reflexivity. Qed.
Lemma point_inverse s : sev_segment s = false -> e_p1 s = e_p0 s.
Proof. unfold sev_segment. destruct (e_p0 s) as [x0 y0], (e_p1 s) as [x1 y1]; cbn [px py]. intros H. apply orb_false_iff in H. rewrite !negb_false_iff, !Z.eqb_eq in H. destruct H as [-> ->]. reflexivity. Qed.
Lemma primary_inverse s t : is_primary_edge (sev_inverse s) t = is_primary_edge s t.
Proof.
  unfold is_primary_edge. rewrite segment_inverse. destruct (sev_segment s) eqn:S, (sev_segment t); cbn [negb andb]; try reflexivity; cbn [sev_inverse e_p0 e_p1].
  - apply andb_comm.
  - rewrite (point_inverse s S). reflexivity.
Qed.
Lemma linear_inverse s t : is_linear_edge (sev_inverse s) t = is_linear_edge s t.
Proof. unfold is_linear_edge. rewrite primary_inverse, segment_inverse. reflexivity. Qed.
Lemma bits_of s s0 t t0 : s = s0 \/ s = sev_inverse s0 -> t = t0 \/ t = sev_inverse t0 ->
  edge_bits (is_linear_edge s t) (is_primary_edge s t) = edge_bits (is_linear_edge s0 t0) (is_primary_edge s0 t0).
Proof.
  intros [->| ->] [->| ->]; rewrite ?linear_inverse, ?primary_inverse, ?(linear_sym s0), ?(primary_sym s0), ?linear_inverse, ?primary_inverse; reflexivity.
Qed.
Lemma bits_sym s t : edge_bits (is_linear_edge s t) (is_primary_edge s t) = edge_bits (is_linear_edge t s) (is_primary_edge t s).
Proof. rewrite linear_sym, primary_sym. reflexivity. Qed.

Lemma wf_half_edges C V E : wf C V E -> half_edges C E.
Proof.
  intros W. constructor.
  - intros i H. exists (tw i). pose proof (tw_lt i _ (w_even _ _ _ W) H) as K. repeat split; [exact (w_tn _ _ _ W i H)|exact K|apply tw_neq|].
    rewrite (w_tn _ _ _ W _ K). f_equal. apply tw_tw.
  - exact (w_cl _ _ _ W).
  - intros i j H. apply (w_nx _ _ _ W) in H. split; [eapply pv_lt; exact H|exact H].
  - intros i j H. apply (w_pv _ _ _ W) in H. split; [eapply nx_lt; exact H|exact H].
  - exact (w_ncl _ _ _ W).
  - intros i j t H T. rewrite (w_nvx _ _ _ W _ _ H). pose proof (nx_lt _ _ _ H) as K. rewrite (w_tn _ _ _ W _ K) in T. congruence.
Qed.

Lemma upd_app_r {A : Type} (l r : list A) f : forall i, upd (length l + i) f (l ++ r) = l ++ upd i f r.
Proof. induction l as [|a l IH]; intros i; [reflexivity|]. cbn. rewrite IH. reflexivity. Qed.
Lemma upd_end0 {A : Type} (l r : list A) a f : upd (length l) f (l ++ a :: r) = l ++ f a :: r.
Proof. rewrite <- (Nat.add_0_r (length l)), upd_app_r. reflexivity. Qed.
Lemma upd_end1 {A : Type} (l r : list A) a b f : upd (length l + 1) f (l ++ a :: b :: r) = l ++ a :: f b :: r.
Proof. rewrite upd_app_r. reflexivity. Qed.
Lemma even_plus2 n : Nat.even (n + 2) = Nat.even n.
Proof. rewrite Nat.even_add. destruct (Nat.even n); reflexivity. Qed.

(* ---------- _insert_new_edge(site1, site2) ---------- *)
Definition pair_darts (s1 s2 : sev) (n : nat) : list dart :=
  [mk_dart (Some (e_sorted s1)) None (Some (n + 1)) None None (edge_bits (is_linear_edge s1 s2) (is_primary_edge s1 s2));
   mk_dart (Some (e_sorted s2)) None (Some n) None None (edge_bits (is_linear_edge s1 s2) (is_primary_edge s1 s2))].
Definition cells_after (s1 s2 : sev) (C : list vcell) : list vcell :=
  match C with [] => [new_cell s1; new_cell s2] | _ => C ++ [new_cell s2] end.
Lemma insert_site_edge_ok s1 s2 g :
  let C' := cells_after s1 s2 (dg_cells g) in
  length (dg_edges g) + 2 <= 6 * dg_cap g -> length C' <= dg_cap g -> e_sorted s1 < length C' -> e_sorted s2 < length C' ->
  let n := length (dg_edges g) in
  insert_site_edge s1 s2 g = Ok (mk_dg C' (dg_vertices g) (dg_edges g ++ pair_darts s1 s2 n) (dg_cap g), (Some n, Some (n + 1))).
Proof.
  intros C' HE HC H1 H2 n. unfold insert_site_edge. set (il := is_linear_edge s1 s2). set (ip := is_primary_edge s1 s2).
  unfold push_edge. destruct (Nat.ltb_spec (length (dg_edges g)) (6 * dg_cap g)) as [K|K]; [|lia]. cbn [obind dg_cells dg_vertices dg_edges dg_cap].
  rewrite app_length. cbn [length]. destruct (Nat.ltb_spec (length (dg_edges g) + 1) (6 * dg_cap g)) as [K2|K2]; [|lia]. cbn [obind dg_cells dg_vertices dg_edges dg_cap].
  set (E2 := (dg_edges g ++ [new_dart il ip]) ++ [new_dart il ip]).
  set (g2 := mk_dg (dg_cells g) (dg_vertices g) E2 (dg_cap g)).
  assert (G4 : (try g3 <- (match dg_cells g with [] => push_cell (new_cell s1) g2 | _ => Ok g2 end); push_cell (new_cell s2) g3) = Ok (mk_dg C' (dg_vertices g) E2 (dg_cap g))).
  { subst C'. unfold cells_after in *. unfold push_cell. destruct (dg_cells g) as [|c C] eqn:EC.
    - cbn [length] in HC. subst g2. cbn [dg_cells dg_cap length]. destruct (Nat.ltb_spec 0 (dg_cap g)); [|lia]. cbn [obind dg_cells dg_cap app length dg_vertices dg_edges].
      destruct (Nat.ltb_spec 1 (dg_cap g)); [|lia]. reflexivity.
    - rewrite app_length in HC. cbn [length] in HC. subst g2. cbn [obind dg_cells dg_cap dg_vertices dg_edges]. cbn [length]. destruct (Nat.ltb_spec (S (length C)) (dg_cap g)); [|lia]. reflexivity. }
  destruct (match dg_cells g with [] => push_cell (new_cell s1) g2 | _ => Ok g2 end) as [g3| |]; cbn [obind] in G4 |- *; try discriminate G4. rewrite G4. cbn [obind].
  unfold cell_ptr. cbn [dg_cells]. destruct (Nat.ltb_spec (e_sorted s1) (length C')); [|lia]. cbn [obind].
  assert (L2 : length E2 = n + 2). { unfold E2. rewrite !app_length. cbn. lia. }
  unfold on_edges. cbn [dg_edges]. rewrite assign_ok by (rewrite L2; fold n; lia). cbn [obind dg_cells dg_vertices dg_edges dg_cap].
  destruct (Nat.ltb_spec (e_sorted s2) (length C')); [|lia]. cbn [obind].
  rewrite assign_ok by (rewrite length_upd, L2; fold n; lia). cbn [obind dg_cells dg_vertices dg_edges dg_cap].
  rewrite assign_ok by (rewrite !length_upd, L2; fold n; lia). cbn [obind dg_cells dg_vertices dg_edges dg_cap].
  rewrite assign_ok by (rewrite !length_upd, L2; fold n; lia). cbn [obind dg_cells dg_vertices dg_edges dg_cap].
  fold n. replace E2 with (dg_edges g ++ [new_dart il ip; new_dart il ip]) by (unfold E2; rewrite <- app_assoc; reflexivity).
  unfold n. rewrite upd_end0, upd_end1, upd_end0, upd_end1. reflexivity.
Qed.
Lemma fld_two {B : Type} (f : dart -> option B) E a b j :
  fld f (E ++ [a; b]) j = if j <? length E then fld f E j else if j =? length E then f a else if j =? length E + 1 then f b else None.
Proof.
  rewrite fld_app. destruct (Nat.ltb_spec j (length E)); [reflexivity|]. unfold fld.
  destruct (Nat.eqb_spec j (length E)) as [->|N]; [rewrite Nat.sub_diag; reflexivity|].
  destruct (Nat.eqb_spec j (length E + 1)) as [->|N2]; [replace (length E + 1 - length E) with 1 by lia; reflexivity|].
  destruct (j - length E) as [|[|k]] eqn:D; [lia|lia|]. cbn. destruct k; reflexivity.
Qed.
Lemma tw_end n : Nat.even n = true -> tw n = n + 1 /\ tw (n + 1) = n.
Proof. intros H. apply Nat.even_spec in H. destruct H as [m ->]. rewrite tw_even, tw_odd. split; reflexivity. Qed.

Ltac cases j n := destruct (Nat.ltb_spec j n); [|destruct (Nat.eqb_spec j n); [subst j|destruct (Nat.eqb_spec j (n + 1)); [subst j|]]].

Section Pair.
Variables (C C' V : nat) (E : list dart) (s1 s2 : sev).
Hypothesis W : wf C V E.
Hypothesis CC : C <= C'.
Hypothesis S1 : e_sorted s1 < C'.
Hypothesis S2 : e_sorted s2 < C'.
Let n := length E.
Let E' := E ++ pair_darts s1 s2 n.
Lemma pair_cl j : cl E' j = if j <? n then cl E j else if j =? n then Some (e_sorted s1) else if j =? n + 1 then Some (e_sorted s2) else None.
Proof. exact (fld_two d_cell _ _ _ j). Qed.
Lemma pair_tn j : tn E' j = if j <? n then tn E j else if j =? n then Some (n + 1) else if j =? n + 1 then Some n else None.
Proof. exact (fld_two d_twin _ _ _ j). Qed.
Lemma pair_null (f : dart -> option nat) j : f (mk_dart (Some (e_sorted s1)) None (Some (n + 1)) None None (edge_bits (is_linear_edge s1 s2) (is_primary_edge s1 s2))) = None ->
  f (mk_dart (Some (e_sorted s2)) None (Some n) None None (edge_bits (is_linear_edge s1 s2) (is_primary_edge s1 s2))) = None -> fld f E' j = fld f E j.
Proof.
  clear W CC S1 S2. intros H1 H2. unfold E', pair_darts. rewrite fld_two. fold n. cases j n; [reflexivity| | |]; rewrite (fld_none f E) by (fold n; lia); try assumption. reflexivity.
Qed.
Lemma pair_vx j : vx E' j = vx E j. Proof. apply pair_null; reflexivity. Qed.
Lemma pair_nx j : nx E' j = nx E j. Proof. apply pair_null; reflexivity. Qed.
Lemma pair_pv j : pv E' j = pv E j. Proof. apply pair_null; reflexivity. Qed.
Lemma pair_length : length E' = n + 2. Proof. unfold E'. rewrite app_length. reflexivity. Qed.
Lemma pair_wf : wf C' V E'.
Proof.
  destruct (tw_end n (w_even _ _ _ W)) as [T1 T2].
  assert (TL : forall i, i < n -> tw i < n) by (intros i; apply tw_lt; exact (w_even _ _ _ W)).
  assert (NN : forall f i, n <= i -> @fld nat f E i = None) by (intros f i H; apply fld_none; exact H).
  constructor.
  - rewrite pair_length, even_plus2. exact (w_even _ _ _ W).
  - rewrite pair_length. intros i H. rewrite pair_tn. cases i n; [exact (w_tn _ _ _ W i ltac:(assumption))|congruence|congruence|lia].
  - rewrite pair_length. intros i H. rewrite pair_cl. cases i n.
    + destruct (w_cl _ _ _ W i ltac:(assumption)) as [c [K1 K2]]. exists c. split; [exact K1|lia].
    + eexists. split; [reflexivity|exact S1].
    + eexists. split; [reflexivity|exact S2].
    + lia.
  - intros i v. rewrite pair_vx. apply (w_vx _ _ _ W).
  - intros i j. rewrite pair_nx, pair_pv. apply (w_nx _ _ _ W).
  - intros i j. rewrite pair_nx, pair_pv. apply (w_pv _ _ _ W).
  - rewrite pair_length. intros i H. rewrite pair_vx, pair_pv. destruct (Nat.lt_ge_cases i n) as [L|L]; [exact (w_null _ _ _ W i L)|].
    unfold vx, pv. rewrite !NN by exact L. tauto.
  - rewrite pair_length. intros i H. rewrite pair_pv, pair_nx. destruct (Nat.lt_ge_cases i n) as [L|L]; [exact (w_null2 _ _ _ W i L)|].
    unfold nx, pv. rewrite !NN; [tauto|apply tw_ge; [exact (w_even _ _ _ W)|exact L]|exact L].
  - intros i j. rewrite pair_nx. intros H. pose proof (nx_lt _ _ _ H) as L1. pose proof (pv_lt _ _ _ (w_nx _ _ _ W _ _ H)) as L2. rewrite !pair_cl.
    fold n in L1, L2. destruct (Nat.ltb_spec i n); [|lia]. destruct (Nat.ltb_spec j n); [|lia]. exact (w_ncl _ _ _ W _ _ H).
  - intros i j. rewrite pair_nx, !pair_vx. apply (w_nvx _ _ _ W).
Qed.
Lemma pair_around : around3 E -> around3 E'.
Proof.
  intros A i j v. rewrite !pair_vx. intros H1 H2. specialize (A i j v H1 H2). unfold rot in *. rewrite pair_pv.
  destruct A as [A|[A|[k [A1 A2]]]]; [left; exact A|right; left; exact A|right; right; exists k; rewrite pair_pv; split; assumption].
Qed.
Lemma pair_apart : apart E -> e_sorted s1 <> e_sorted s2 -> apart E'.
Proof.
  clear CC S1 S2. intros A N i. rewrite pair_length, !pair_cl. intros H. destruct (tw_end n (w_even _ _ _ W)) as [T1 T2].
  cases i n.
  - pose proof (tw_lt i n (w_even _ _ _ W) ltac:(assumption)) as K. destruct (Nat.ltb_spec (tw i) n); [|lia]. apply A. assumption.
  - rewrite T1. destruct (Nat.ltb_spec (n + 1) n); [lia|]. destruct (Nat.eqb_spec (n + 1) n); [lia|]. rewrite Nat.eqb_refl. congruence.
  - rewrite T2. rewrite Nat.ltb_irrefl, Nat.eqb_refl. congruence.
  - lia.
Qed.
Lemma pair_flagged all t1 t2 : flagged all E -> nth_error all (e_sorted s1) = Some t1 -> s1 = t1 \/ s1 = sev_inverse t1 -> nth_error all (e_sorted s2) = Some t2 -> s2 = t2 \/ s2 = sev_inverse t2 -> flagged all E'.
Proof.
  clear CC S1 S2. intros F N1 G1 N2 G2 i. rewrite pair_length, !pair_cl. intros H. destruct (tw_end n (w_even _ _ _ W)) as [T1 T2].
  assert (CO : forall j, col E' j = if j <? n then col E j else if j =? n then Some (edge_bits (is_linear_edge s1 s2) (is_primary_edge s1 s2)) else if j =? n + 1 then Some (edge_bits (is_linear_edge s1 s2) (is_primary_edge s1 s2)) else None) by (intros j; exact (fld_two _ _ _ _ j)).
  rewrite CO. cases i n.
  - pose proof (tw_lt i n (w_even _ _ _ W) H0) as TL. destruct (Nat.ltb_spec (tw i) n); [|lia]. exact (F i H0).
  - rewrite T1. destruct (Nat.ltb_spec (n + 1) n); [lia|]. destruct (Nat.eqb_spec (n + 1) n); [lia|]. rewrite Nat.eqb_refl. exists (e_sorted s1), (e_sorted s2), t1, t2. rewrite (bits_of _ _ _ _ G1 G2). tauto.
  - rewrite T2. destruct (Nat.ltb_spec n n); [lia|]. rewrite Nat.eqb_refl. exists (e_sorted s2), (e_sorted s1), t2, t1. rewrite (bits_of _ _ _ _ G1 G2), (bits_sym t1 t2). tauto.
  - lia.
Qed.
End Pair.

(* ---------- _insert_new_edge(site1, site3, circle, edge12, edge23) ---------- *)
Section Circle.
Variables (C V : nat) (E : list dart) (s1 s3 : sev) (a b : nat).
Hypothesis W : wf C V E.
Hypothesis LA : a < length E.
Hypothesis LB : b < length E.
Hypothesis AB : a <> b.
Hypothesis PA : pv E a = None.
Hypothesis PB : pv E b = None.
Hypothesis CA : cl E a = Some (e_sorted s1).
Hypothesis CAB : cl E (tw a) = cl E b.
Hypothesis CB : cl E (tw b) = Some (e_sorted s3).
Let n := length E.
Let bits := edge_bits (is_linear_edge s1 s3) (is_primary_edge s1 s3).
Definition circ_base : list dart := upd b (set_vertex (Some V)) (upd a (set_vertex (Some V)) E) ++
  [mk_dart (Some (e_sorted s1)) None (Some (n + 1)) None None bits; mk_dart (Some (e_sorted s3)) (Some V) (Some n) None None bits].
Definition circ_edges : list dart :=
  upd (n + 1) (set_prev (Some (tw b))) (upd (tw b) (set_next (Some (n + 1))) (upd b (set_prev (Some (tw a)))
  (upd (tw a) (set_next (Some b)) (upd n (set_next (Some a)) (upd a (set_prev (Some n)) circ_base))))).
Let E' := circ_edges.
Lemma circ_base_length : length circ_base = n + 2.
Proof. unfold circ_base. rewrite app_length, !length_upd. reflexivity. Qed.
Lemma circ_length : length E' = n + 2.
Proof. unfold E', circ_edges. rewrite !length_upd. exact circ_base_length. Qed.
Lemma twa : tw a < n. Proof. apply tw_lt; [exact (w_even _ _ _ W)|exact LA]. Qed.
Lemma twb : tw b < n. Proof. apply tw_lt; [exact (w_even _ _ _ W)|exact LB]. Qed.
Lemma base_fld (f : dart -> option nat) j : fld f circ_base j =
  if j <? n then fld f (upd b (set_vertex (Some V)) (upd a (set_vertex (Some V)) E)) j
  else if j =? n then f (mk_dart (Some (e_sorted s1)) None (Some (n + 1)) None None bits)
  else if j =? n + 1 then f (mk_dart (Some (e_sorted s3)) (Some V) (Some n) None None bits) else None.
Proof. unfold circ_base. rewrite fld_two. rewrite !length_upd. reflexivity. Qed.
Ltac base := match goal with |- context [?g circ_base ?j] => unfold g at 1; rewrite base_fld end.
Lemma circ_tn j : tn E' j = if j <? n then tn E j else if j =? n then Some (n + 1) else if j =? n + 1 then Some n else None.
Proof. unfold E', circ_edges. autorewrite with vd. change (tn circ_base j) with (fld d_twin circ_base j). rewrite base_fld. cbn [d_twin]. fold (tn (upd b (set_vertex (Some V)) (upd a (set_vertex (Some V)) E)) j). autorewrite with vd. reflexivity. Qed.
Lemma circ_cl j : cl E' j = if j <? n then cl E j else if j =? n then Some (e_sorted s1) else if j =? n + 1 then Some (e_sorted s3) else None.
Proof. unfold E', circ_edges. autorewrite with vd. change (cl circ_base j) with (fld d_cell circ_base j). rewrite base_fld. cbn [d_cell]. fold (cl (upd b (set_vertex (Some V)) (upd a (set_vertex (Some V)) E)) j). autorewrite with vd. reflexivity. Qed.
Lemma circ_vx j : vx E' j = if (a =? j) || (b =? j) || (j =? n + 1) then Some V else vx E j.
Proof.
  unfold E', circ_edges. autorewrite with vd. change (vx circ_base j) with (fld d_vertex circ_base j). rewrite base_fld. cbn [d_vertex].
  fold (vx (upd b (set_vertex (Some V)) (upd a (set_vertex (Some V)) E)) j). autorewrite with vd. fold n in LA, LB.
  assert (N : n <= j -> vx E j = None) by (intros; apply fld_none; assumption).
  cases j n.
  - destruct (Nat.eqb_spec j (n + 1)); [lia|]. destruct (a =? j), (b =? j); reflexivity.
  - destruct (Nat.eqb_spec n (n + 1)); [lia|]. destruct (Nat.eqb_spec a n); [lia|]. destruct (Nat.eqb_spec b n); [lia|]. cbn [orb]. rewrite N by lia. reflexivity.
  - rewrite orb_true_r. reflexivity.
  - destruct (Nat.eqb_spec a j); [lia|]. destruct (Nat.eqb_spec b j); [lia|]. cbn [orb]. rewrite N by lia. reflexivity.
Qed.
Lemma circ_nx j : nx E' j = if tw b =? j then Some (n + 1) else if tw a =? j then Some b else if n =? j then Some a else nx E j.
Proof.
  pose proof twa as TA. pose proof twb as TB. unfold E', circ_edges. pose proof circ_base_length as L.
  repeat first [rewrite nx_set_next by (rewrite ?length_upd; fold n in LA, LB; lia) | progress autorewrite with vd].
  destruct (tw b =? j); [reflexivity|]. destruct (tw a =? j); [reflexivity|]. destruct (Nat.eqb_spec n j); [reflexivity|].
  change (nx circ_base j) with (fld d_next circ_base j). rewrite base_fld. cbn [d_next].
  fold (nx (upd b (set_vertex (Some V)) (upd a (set_vertex (Some V)) E)) j). autorewrite with vd.
  assert (N : n <= j -> nx E j = None) by (intros; apply fld_none; assumption).
  cases j n; try reflexivity; rewrite N by lia; reflexivity.
Qed.
Lemma circ_pv j : pv E' j = if n + 1 =? j then Some (tw b) else if b =? j then Some (tw a) else if a =? j then Some n else pv E j.
Proof.
  pose proof twa as TA. pose proof twb as TB. unfold E', circ_edges. pose proof circ_base_length as L.
  repeat first [rewrite pv_set_prev by (rewrite ?length_upd; fold n in LA, LB; lia) | progress autorewrite with vd].
  destruct (Nat.eqb_spec (n + 1) j); [reflexivity|]. destruct (b =? j); [reflexivity|]. destruct (a =? j); [reflexivity|].
  change (pv circ_base j) with (fld d_prev circ_base j). rewrite base_fld. cbn [d_prev].
  fold (pv (upd b (set_vertex (Some V)) (upd a (set_vertex (Some V)) E)) j). autorewrite with vd.
  assert (N : n <= j -> pv E j = None) by (intros; apply fld_none; assumption).
  cases j n; try reflexivity; rewrite N by lia; reflexivity.
Qed.

Ltac eqd := repeat match goal with
  | H : context [?x =? ?y] |- _ => destruct (Nat.eqb_spec x y); [try subst|]; cbn [orb] in H
  | |- context [?x =? ?y] => destruct (Nat.eqb_spec x y); [try subst|]; cbn [orb]
  end.
Lemma none_out (f : dart -> option nat) j : n <= j -> fld f E j = None. Proof. intros; apply fld_none; assumption. Qed.
Lemma vxa : vx E a = None. Proof. apply (w_null _ _ _ W a LA). exact PA. Qed.
Lemma vxb : vx E b = None. Proof. apply (w_null _ _ _ W b LB). exact PB. Qed.
Lemma nxa : nx E (tw a) = None. Proof. apply (w_null2 _ _ _ W a LA). exact PA. Qed.
Lemma nxb : nx E (tw b) = None. Proof. apply (w_null2 _ _ _ W b LB). exact PB. Qed.
Lemma circ_wf : e_sorted s1 < C -> e_sorted s3 < C -> wf C (V + 1) E'.
Proof.
  intros S1 S3. destruct (tw_end n (w_even _ _ _ W)) as [T1 T2]. pose proof twa as TA. pose proof twb as TB. pose proof vxa as VA. pose proof vxb as VB.
  pose proof nxa as NA. pose proof nxb as NB. pose proof none_out as NO. fold n in LA, LB.
  assert (TAB : tw a <> tw b) by (intros X; apply AB, tw_inj, X).
  assert (TL : forall i, i < n -> tw i < n) by (intros i; apply tw_lt; exact (w_even _ _ _ W)).
  constructor.
  - rewrite circ_length, even_plus2. exact (w_even _ _ _ W).
  - rewrite circ_length. intros i H. rewrite circ_tn. cases i n; [exact (w_tn _ _ _ W i ltac:(assumption))|congruence|congruence|lia].
  - rewrite circ_length. intros i H. rewrite circ_cl. cases i n; [exact (w_cl _ _ _ W i ltac:(assumption))| | |lia]; eexists; split; try reflexivity; assumption.
  - intros i v. rewrite circ_vx. destruct (_ || _); [intros H; assert (v = V) by congruence; lia|]. intros H. apply (w_vx _ _ _ W) in H. lia.
  - intros i j. rewrite circ_nx, circ_pv.
    destruct (Nat.eqb_spec (tw b) i) as [->|I1]. { intros H. assert (j = n + 1) by congruence. subst j. rewrite Nat.eqb_refl. reflexivity. }
    destruct (Nat.eqb_spec (tw a) i) as [->|I2]. { intros H. assert (j = b) by congruence. subst j. rewrite Nat.eqb_refl. destruct (Nat.eqb_spec (n + 1) b); [lia|reflexivity]. }
    destruct (Nat.eqb_spec n i) as [<-|I3]. { intros H. assert (j = a) by congruence. subst j. destruct (Nat.eqb_spec (n + 1) a); [lia|]. destruct (Nat.eqb_spec b a); [lia|]. rewrite Nat.eqb_refl. reflexivity. }
    intros H. apply (w_nx _ _ _ W) in H. pose proof (pv_lt _ _ _ H) as L. fold n in L. destruct (Nat.eqb_spec (n + 1) j); [lia|].
    destruct (Nat.eqb_spec b j); [congruence|]. destruct (Nat.eqb_spec a j); [congruence|]. exact H.
  - intros i j. rewrite circ_nx, circ_pv.
    destruct (Nat.eqb_spec (n + 1) i) as [<-|I1]. { intros H. assert (j = tw b) by congruence. subst j. rewrite Nat.eqb_refl. reflexivity. }
    destruct (Nat.eqb_spec b i) as [<-|I2]. { intros H. assert (j = tw a) by congruence. subst j. rewrite Nat.eqb_refl. destruct (Nat.eqb_spec (tw b) (tw a)); [congruence|reflexivity]. }
    destruct (Nat.eqb_spec a i) as [<-|I3]. { intros H. assert (j = n) by congruence. subst j. destruct (Nat.eqb_spec (tw b) n); [lia|]. destruct (Nat.eqb_spec (tw a) n); [lia|]. rewrite Nat.eqb_refl. reflexivity. }
    intros H. apply (w_pv _ _ _ W) in H. pose proof (nx_lt _ _ _ H) as L. fold n in L. destruct (Nat.eqb_spec (tw b) j); [congruence|].
    destruct (Nat.eqb_spec (tw a) j); [congruence|]. destruct (Nat.eqb_spec n j); [lia|]. exact H.
  - rewrite circ_length. intros i H. rewrite circ_vx, circ_pv.
    destruct (Nat.eqb_spec (n + 1) i) as [<-|I1]. { rewrite Nat.eqb_refl, orb_true_r. split; discriminate. }
    destruct (Nat.eqb_spec b i) as [<-|I2]. { rewrite orb_true_r. cbn [orb]. split; discriminate. }
    destruct (Nat.eqb_spec a i) as [<-|I3]. { cbn [orb]. split; discriminate. }
    destruct (Nat.eqb_spec i (n + 1)); [lia|]. cbn [orb]. destruct (Nat.lt_ge_cases i n) as [L|L]; [exact (w_null _ _ _ W i L)|]. unfold vx, pv. rewrite !NO by lia. tauto.
  - rewrite circ_length. intros i H. rewrite circ_nx, circ_pv.
    destruct (Nat.eqb_spec (n + 1) i) as [<-|I1].
    { rewrite T2, Nat.eqb_refl. destruct (Nat.eqb_spec (tw b) n); [lia|]. destruct (Nat.eqb_spec (tw a) n); [lia|]. split; discriminate. }
    destruct (Nat.eqb_spec b i) as [<-|I2]. { rewrite Nat.eqb_refl. split; discriminate. }
    destruct (Nat.eqb_spec a i) as [<-|I3]. { rewrite Nat.eqb_refl. destruct (tw b =? tw a); split; discriminate. }
    destruct (Nat.eqb_spec (tw b) (tw i)) as [X|_]; [apply tw_inj in X; congruence|].
    destruct (Nat.eqb_spec (tw a) (tw i)) as [X|_]; [apply tw_inj in X; congruence|].
    destruct (Nat.lt_ge_cases i n) as [L|L].
    + specialize (TL i L). destruct (Nat.eqb_spec n (tw i)); [lia|]. exact (w_null2 _ _ _ W i L).
    + assert (i = n) by lia. subst i. rewrite T1. destruct (Nat.eqb_spec n (n + 1)); [lia|]. unfold pv, nx. rewrite !NO by lia. tauto.
  - intros i j. rewrite circ_nx, !circ_cl.
    destruct (Nat.eqb_spec (tw b) i) as [<-|I1].
    { intros H. assert (j = n + 1) by congruence. subst j. destruct (Nat.ltb_spec (n + 1) n); [lia|]. destruct (Nat.eqb_spec (n + 1) n); [lia|]. rewrite Nat.eqb_refl.
      destruct (Nat.ltb_spec (tw b) n); [|lia]. congruence. }
    destruct (Nat.eqb_spec (tw a) i) as [<-|I2].
    { intros H. assert (j = b) by congruence. subst j. destruct (Nat.ltb_spec b n); [|lia]. destruct (Nat.ltb_spec (tw a) n); [|lia]. congruence. }
    destruct (Nat.eqb_spec n i) as [<-|I3].
    { intros H. assert (j = a) by congruence. subst j. destruct (Nat.ltb_spec a n); [|lia]. rewrite Nat.ltb_irrefl, Nat.eqb_refl. exact CA. }
    intros H. pose proof (nx_lt _ _ _ H) as L1. pose proof (pv_lt _ _ _ (w_nx _ _ _ W _ _ H)) as L2. fold n in L1, L2.
    destruct (Nat.ltb_spec j n); [|lia]. destruct (Nat.ltb_spec i n); [|lia]. exact (w_ncl _ _ _ W _ _ H).
  - intros i j. rewrite circ_nx, !circ_vx.
    destruct (Nat.eqb_spec (tw b) i) as [<-|I1]. { intros H. assert (j = n + 1) by congruence. subst j. rewrite Nat.eqb_refl, orb_true_r, tw_tw, Nat.eqb_refl, orb_true_r. reflexivity. }
    destruct (Nat.eqb_spec (tw a) i) as [<-|I2]. { intros H. assert (j = b) by congruence. subst j. rewrite tw_tw, !Nat.eqb_refl, orb_true_r. reflexivity. }
    destruct (Nat.eqb_spec n i) as [<-|I3]. { intros H. assert (j = a) by congruence. subst j. rewrite T1, !Nat.eqb_refl, !orb_true_r. reflexivity. }
    intros H. pose proof (nx_lt _ _ _ H) as L1. fold n in L1. pose proof (w_nx _ _ _ W _ _ H) as P. pose proof (pv_lt _ _ _ P) as L2. fold n in L2.
    destruct (Nat.eqb_spec a j); [congruence|]. destruct (Nat.eqb_spec b j); [congruence|]. destruct (Nat.eqb_spec j (n + 1)); [lia|].
    specialize (TL i L1). destruct (Nat.eqb_spec a (tw i)) as [X|_]; [rewrite X, tw_tw in I2; congruence|]. destruct (Nat.eqb_spec b (tw i)) as [X|_]; [rewrite X, tw_tw in I1; congruence|].
    destruct (Nat.eqb_spec (tw i) (n + 1)); [lia|]. cbn [orb]. exact (w_nvx _ _ _ W _ _ H).
Qed.
Lemma circ_around : around3 E -> around3 E'.
Proof.
  intros A i j v Hi Hj. destruct (tw_end n (w_even _ _ _ W)) as [T1 T2]. fold n in LA, LB.
  assert (Ra : rot E' a = Some (n + 1)).
  { unfold rot. rewrite circ_pv. destruct (Nat.eqb_spec (n + 1) a); [lia|]. destruct (Nat.eqb_spec b a); [lia|]. rewrite Nat.eqb_refl. f_equal. exact T1. }
  assert (Rb : rot E' b = Some a). { unfold rot. rewrite circ_pv, Nat.eqb_refl. destruct (Nat.eqb_spec (n + 1) b); [lia|]. f_equal. apply tw_tw. }
  assert (Rn : rot E' (n + 1) = Some b). { unfold rot. rewrite circ_pv, Nat.eqb_refl. f_equal. apply tw_tw. }
  rewrite circ_vx in Hi, Hj.
  assert (VO : forall k, vx E k <> Some V) by (intros k X; apply (w_vx _ _ _ W) in X; lia).
  destruct ((a =? i) || (b =? i) || (i =? n + 1)) eqn:Gi.
  - assert (v = V) by congruence. subst v. destruct ((a =? j) || (b =? j) || (j =? n + 1)) eqn:Gj; [|exfalso; exact (VO j Hj)].
    assert (Ci : i = a \/ i = b \/ i = n + 1) by lia. assert (Cj : j = a \/ j = b \/ j = n + 1) by lia. clear Gi Gj Hi Hj.
    destruct Ci as [->|[->| ->]], Cj as [->|[->| ->]]; try (left; reflexivity); try (right; left; assumption); right; right; eexists; split; eassumption.
  - destruct ((a =? j) || (b =? j) || (j =? n + 1)) eqn:Gj; [exfalso; apply (VO i); congruence|].
    assert (R : forall k l, rot E k = Some l -> rot E' k = Some l).
    { intros k l. unfold rot. rewrite circ_pv. destruct (pv E k) as [m|] eqn:P; [|discriminate]. pose proof (pv_lt _ _ _ P) as L. fold n in L.
      destruct (Nat.eqb_spec (n + 1) k); [lia|]. destruct (Nat.eqb_spec b k); [congruence|]. destruct (Nat.eqb_spec a k); [congruence|]. tauto. }
    destruct (A i j v Hi Hj) as [X|[X|[k [X Y]]]]; [left; exact X|right; left; exact (R _ _ X)|right; right; exists k; split; [exact (R _ _ X)|exact (R _ _ Y)]].
Qed.
Lemma circ_apart : apart E -> e_sorted s1 <> e_sorted s3 -> apart E'.
Proof.
  intros A N i. rewrite circ_length, !circ_cl. intros H. destruct (tw_end n (w_even _ _ _ W)) as [T1 T2].
  cases i n.
  - pose proof (tw_lt i n (w_even _ _ _ W) ltac:(assumption)) as K. destruct (Nat.ltb_spec (tw i) n); [|lia]. apply A. assumption.
  - rewrite T1. destruct (Nat.ltb_spec (n + 1) n); [lia|]. destruct (Nat.eqb_spec (n + 1) n); [lia|]. rewrite Nat.eqb_refl. congruence.
  - rewrite T2. rewrite Nat.ltb_irrefl, Nat.eqb_refl. congruence.
  - lia.
Qed.
Lemma circ_flagged all t1 t3 : flagged all E -> nth_error all (e_sorted s1) = Some t1 -> s1 = t1 \/ s1 = sev_inverse t1 -> nth_error all (e_sorted s3) = Some t3 -> s3 = t3 \/ s3 = sev_inverse t3 -> flagged all E'.
Proof.
  intros F N1 G1 N3 G3 i. rewrite circ_length, !circ_cl. intros H. destruct (tw_end n (w_even _ _ _ W)) as [T1 T2].
  assert (CO : forall j, col E' j = if j <? n then col E j else if j =? n then Some bits else if j =? n + 1 then Some bits else None).
  { intros j. assert (UC : forall q (h : dart -> dart) F0, (forall d, d_color (h d) = d_color d) -> col (upd q h F0) j = col F0 j).
    { intros q h F0 HC. unfold col. rewrite fld_upd. destruct ((q =? j) && _); [|reflexivity]. unfold fld. destruct (nth_error F0 j); [rewrite HC|]; reflexivity. }
    unfold E', circ_edges. rewrite !UC by (intros d; reflexivity). unfold circ_base, col at 1. rewrite fld_two. rewrite !length_upd. fold n. destruct (j <? n); [|reflexivity]. change (col (upd b (set_vertex (Some V)) (upd a (set_vertex (Some V)) E)) j = col E j). rewrite !UC by (intros d; reflexivity). reflexivity. }
  rewrite CO. cases i n.
  - pose proof (tw_lt i n (w_even _ _ _ W) H0) as TL. destruct (Nat.ltb_spec (tw i) n); [|lia]. exact (F i H0).
  - rewrite T1. destruct (Nat.ltb_spec (n + 1) n); [lia|]. destruct (Nat.eqb_spec (n + 1) n); [lia|]. rewrite Nat.eqb_refl. exists (e_sorted s1), (e_sorted s3), t1, t3. unfold bits. rewrite (bits_of _ _ _ _ G1 G3). tauto.
  - rewrite T2. destruct (Nat.ltb_spec n n); [lia|]. rewrite Nat.eqb_refl. exists (e_sorted s3), (e_sorted s1), t3, t1. unfold bits. rewrite (bits_of _ _ _ _ G1 G3), (bits_sym t1 t3). tauto.
  - lia.
Qed.
End Circle.
Lemma insert_circle_edge_ok s1 s3 c a b g CN :
  let E := dg_edges g in let V := length (dg_vertices g) in
  wf CN V E -> a < length E -> b < length E -> a <> b ->
  e_sorted s1 < length (dg_cells g) -> e_sorted s3 < length (dg_cells g) ->
  length E + 2 <= 6 * dg_cap g -> V + 1 <= 2 * dg_cap g ->
  insert_circle_edge s1 s3 c (Some a) (Some b) g =
  Ok (mk_dg (dg_cells g) (dg_vertices g ++ [mk_vvertex (ci_x c) (ci_y c) None 0]) (circ_edges V E s1 s3 a b) (dg_cap g), (Some (length E), Some (length E + 1))).
Proof.
  intros E V W LA LB AB S1 S3 HE HV. unfold insert_circle_edge. set (il := is_linear_edge s1 s3). set (ip := is_primary_edge s1 s3).
  pose proof (tw_lt a _ (w_even _ _ _ W) LA) as TA. pose proof (tw_lt b _ (w_even _ _ _ W) LB) as TB.
  unfold push_vertex. destruct (Nat.ltb_spec (length (dg_vertices g)) (2 * dg_cap g)) as [K|K]; [|fold V in K; lia]. cbn [obind].
  unfold on_edges at 1. cbn [dg_cells dg_vertices dg_edges dg_cap]. fold E V. rewrite assign_ok by exact LA. cbn [obind].
  unfold on_edges at 1. cbn [dg_cells dg_vertices dg_edges dg_cap]. rewrite assign_ok by (rewrite length_upd; exact LB). cbn [obind].
  cbn [dg_cells dg_vertices dg_edges dg_cap]. rewrite !length_upd.
  unfold push_edge at 1. cbn [dg_cells dg_vertices dg_edges dg_cap]. rewrite !length_upd. destruct (Nat.ltb_spec (length E) (6 * dg_cap g)) as [K1|K1]; [|lia]. cbn [obind].
  unfold cell_ptr at 1. cbn [dg_cells]. destruct (Nat.ltb_spec (e_sorted s1) (length (dg_cells g))) as [K2|K2]; [|lia]. cbn [obind].
  unfold on_edges at 1. cbn [dg_cells dg_vertices dg_edges dg_cap]. rewrite assign_ok by (rewrite app_length, !length_upd; cbn; lia). cbn [obind].
  set (E1 := upd b (set_vertex (Some V)) (upd a (set_vertex (Some V)) E)).
  assert (L1 : length E1 = length E) by (unfold E1; rewrite !length_upd; reflexivity).
  assert (U0 : forall f x l, upd (length E) f (E1 ++ x :: l) = E1 ++ f x :: l) by (intros; rewrite <- L1; apply upd_end0).
  assert (U1 : forall f x y, upd (length E + 1) f (E1 ++ [x; y]) = E1 ++ [x; f y]) by (intros; rewrite <- L1; apply upd_end1).
  cbn [dg_cells dg_vertices dg_edges dg_cap]. rewrite U0, app_length, L1. cbn [length].
  unfold push_edge at 1. cbn [dg_cells dg_vertices dg_edges dg_cap]. rewrite app_length, L1. cbn [length]. destruct (Nat.ltb_spec (length E + 1) (6 * dg_cap g)) as [K3|K3]; [|lia]. cbn [obind].
  unfold cell_ptr at 1. cbn [dg_cells]. destruct (Nat.ltb_spec (e_sorted s3) (length (dg_cells g))) as [K4|K4]; [|lia]. cbn [obind].
  rewrite <- app_assoc. cbn [app].
  unfold on_edges at 1. cbn [dg_cells dg_vertices dg_edges dg_cap]. rewrite assign_ok by (rewrite app_length, L1; cbn; lia). cbn [obind]. rewrite U1.
  unfold on_edges at 1. cbn [dg_cells dg_vertices dg_edges dg_cap]. rewrite assign_ok by (rewrite app_length, L1; cbn; lia). cbn [obind]. rewrite U0.
  unfold on_edges at 1. cbn [dg_cells dg_vertices dg_edges dg_cap]. rewrite assign_ok by (rewrite app_length, L1; cbn; lia). cbn [obind]. rewrite U1.
  unfold on_edges at 1. cbn [dg_cells dg_vertices dg_edges dg_cap]. rewrite assign_ok by (rewrite app_length, L1; cbn; lia). cbn [obind]. rewrite U1.
  match goal with |- context [E1 ++ ?l] => change (E1 ++ l) with (circ_base V E s1 s3 a b) end.
  pose proof (circ_base_length V E s1 s3 a b) as L2. set (E2 := circ_base V E s1 s3 a b) in *.
  assert (TN : forall j, j < length E -> tn E2 j = Some (tw j)).
  { intros j Hj. rewrite <- (w_tn _ _ _ W j Hj). unfold E2, tn. rewrite base_fld. destruct (Nat.ltb_spec j (length E)); [|lia]. fold (tn (upd b (set_vertex (Some V)) (upd a (set_vertex (Some V)) E)) j). autorewrite with vd. reflexivity. }
  unfold on_edges. cbn [dg_cells dg_vertices dg_edges dg_cap].
  rewrite assign_ok by lia. cbn [obind]. rewrite assign_ok by (rewrite length_upd; lia). cbn [obind].
  rewrite p_twin_ok by (rewrite !length_upd; lia). cbn [obind]. rewrite tn_set_next, tn_set_prev, (TN a) by exact LA.
  rewrite assign_ok by (rewrite !length_upd; lia). cbn [obind].
  rewrite p_twin_ok by (rewrite !length_upd; lia). cbn [obind]. rewrite !tn_set_next, tn_set_prev, (TN a) by exact LA.
  rewrite assign_ok by (rewrite !length_upd; lia). cbn [obind].
  rewrite p_twin_ok by (rewrite !length_upd; lia). cbn [obind]. rewrite tn_set_prev, !tn_set_next, tn_set_prev, (TN b) by exact LB.
  rewrite assign_ok by (rewrite !length_upd; lia). cbn [obind].
  rewrite p_twin_ok by (rewrite !length_upd; lia). cbn [obind]. rewrite tn_set_next, tn_set_prev, !tn_set_next, tn_set_prev, (TN b) by exact LB.
  rewrite assign_ok by (rewrite !length_upd; lia). cbn [obind].
  reflexivity.
Qed.
