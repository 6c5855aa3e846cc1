(* What the sweep never changes: cells, vertices and the cell, twin and flags of edges. *)
From Verif Require Import Base Units Outcome Poly90Model VorSpec VorModel VDModel VDSpec VDMem.
Local Open Scope nat_scope.

(* ---------- specification ---------- *)
Record stable (g g' : diagram) : Prop := mk_stable {
  sb_cells : exists l, dg_cells g' = dg_cells g ++ l;
  sb_vertices : exists l, dg_vertices g' = dg_vertices g ++ l;
  sb_cap : dg_cap g' = dg_cap g;
  sb_length : length (dg_edges g) <= length (dg_edges g');
  sb_cl : forall i, i < length (dg_edges g) -> cl (dg_edges g') i = cl (dg_edges g) i;
  sb_tn : forall i, i < length (dg_edges g) -> tn (dg_edges g') i = tn (dg_edges g) i;
  sb_col : forall i, i < length (dg_edges g) -> col (dg_edges g') i = col (dg_edges g) i
}.

(* ---------- proofs ---------- *)
Lemma stable_refl g : stable g g.
Proof. constructor; try reflexivity; [exists []; symmetry; apply app_nil_r|exists []; symmetry; apply app_nil_r]. Qed.
Lemma stable_trans a b c : stable a b -> stable b c -> stable a c.
Proof.
  intros [[l1 A1] [m1 A2] A3 A4 A5 A6 A7] [[l2 B1] [m2 B2] B3 B4 B5 B6 B7]. constructor; [exists (l1 ++ l2); rewrite B1, A1; symmetry; apply app_assoc|exists (m1 ++ m2); rewrite B2, A2; symmetry; apply app_assoc|congruence|lia| | | ];
    intros i H; [rewrite B5, A5|rewrite B6, A6|rewrite B7, A7]; reflexivity || lia.
Qed.
Lemma push_cell_stable g0 c g g' : stable g0 g -> push_cell c g = Ok g' -> stable g0 g'.
Proof. intros S. unfold push_cell. destruct (_ <? _); [|discriminate]. intros H. apply (stable_trans _ g); [exact S|]. assert (g' = mk_dg (dg_cells g ++ [c]) (dg_vertices g) (dg_edges g) (dg_cap g)) by congruence. subst g'. constructor; cbn; try reflexivity; [exists [c]; reflexivity|exists []; symmetry; apply app_nil_r]. Qed.
Lemma push_vertex_stable g0 c g g' : stable g0 g -> push_vertex c g = Ok g' -> stable g0 g'.
Proof. intros S. unfold push_vertex. destruct (_ <? _); [|discriminate]. intros H. apply (stable_trans _ g); [exact S|]. assert (g' = mk_dg (dg_cells g) (dg_vertices g ++ [c]) (dg_edges g) (dg_cap g)) by congruence. subst g'. constructor; cbn; try reflexivity; [exists []; symmetry; apply app_nil_r|exists [c]; reflexivity]. Qed.
Lemma push_edge_stable g0 c g g' : stable g0 g -> push_edge c g = Ok g' -> stable g0 g'.
Proof.
  intros S. unfold push_edge. destruct (_ <? _); [|discriminate]. intros H. apply (stable_trans _ g); [exact S|]. assert (g' = mk_dg (dg_cells g) (dg_vertices g) (dg_edges g ++ [c]) (dg_cap g)) by congruence. subst g'.
  constructor; cbn; try reflexivity; [exists []; symmetry; apply app_nil_r|exists []; symmetry; apply app_nil_r|rewrite app_length; lia| | | ]; intros i L; unfold cl, tn, col, fld; rewrite nth_error_app1 by exact L; reflexivity.
Qed.
(* an assignment to a field that is kept must be to an edge that is new *)
Definition harmless (n : nat) (p : option nat) (f : dart -> dart) : Prop :=
  (forall d, d_cell (f d) = d_cell d /\ d_twin (f d) = d_twin d /\ d_color (f d) = d_color d) \/ exists k, p = Some k /\ n <= k.
Lemma assign_fields n p f E E' : harmless n p f -> assign p f E = Ok E' -> length E' = length E /\ forall i, i < n -> cl E' i = cl E i /\ tn E' i = tn E i /\ col E' i = col E i.
Proof.
  intros HF. unfold assign. destruct p as [k|]; [|discriminate]. destruct (k <? length E); [|discriminate]. intros H. assert (E' = upd k f E) by congruence. subst E'. split; [apply length_upd|]. intros i L.
  unfold cl, tn, col. rewrite !fld_upd. destruct (Nat.eqb_spec k i) as [->|N]; cbn [andb]; [|repeat split]. destruct HF as [HF|[k' [Q1 Q2]]]; [|exfalso; assert (i = k') by congruence; lia].
  destruct (i <? length E) eqn:IL; [|repeat split]. unfold fld. destruct (nth_error E i) as [d|]; [|repeat split]. destruct (HF d) as [-> [-> ->]]. repeat split.
Qed.
Lemma on_edges_stable g0 f g g' : stable g0 g ->
  (forall E', f (dg_edges g) = Ok E' -> length E' = length (dg_edges g) /\ forall i, i < length (dg_edges g0) -> cl E' i = cl (dg_edges g) i /\ tn E' i = tn (dg_edges g) i /\ col E' i = col (dg_edges g) i) ->
  on_edges f g = Ok g' -> stable g0 g'.
Proof.
  intros [S1 S2 S3 S4 S5 S6 S7] HF. unfold on_edges. destruct (f (dg_edges g)) as [E'| |] eqn:F; cbn [obind]; try discriminate. intros H. assert (g' = mk_dg (dg_cells g) (dg_vertices g) E' (dg_cap g)) by congruence. subst g'.
  destruct (HF E' eq_refl) as [L K]. constructor; cbn; try assumption; [lia| | | ]; intros i I; destruct (K i I) as [K1 [K2 K3]]; [rewrite K1; apply S5|rewrite K2; apply S6|rewrite K3; apply S7]; exact I.
Qed.
Ltac stp H :=
  match type of H with
  | obind ?x _ = Ok _ => let r := fresh "r" in let E := fresh "E" in destruct x as [r| |] eqn:E; cbn [obind] in H; [|discriminate|discriminate]
  end.
Ltac trivial_assign := left; intros d; repeat split.
Lemma push_edge_length c g g' : push_edge c g = Ok g' -> length (dg_edges g') = length (dg_edges g) + 1.
Proof. unfold push_edge. destruct (_ <? _); [|discriminate]. intros H. assert (g' = mk_dg (dg_cells g) (dg_vertices g) (dg_edges g ++ [c]) (dg_cap g)) by congruence. subst g'. cbn. rewrite app_length. reflexivity. Qed.
Lemma insert_site_stable s1 s2 g g' r : insert_site_edge s1 s2 g = Ok (g', r) -> stable g g'.
Proof.
  intros H. unfold insert_site_edge in H. set (n := length (dg_edges g)) in *. stp H. rename r0 into g1, E into E1. pose proof (push_edge_length _ _ _ E1) as L1. stp H. rename r0 into g2, E into E2. pose proof (push_edge_length _ _ _ E2) as L2.
  assert (S2 : stable g g2) by (eapply push_edge_stable; [eapply push_edge_stable; [apply stable_refl|exact E1]|exact E2]).
  stp H. rename r0 into g3, E into E3. assert (S3 : stable g g3) by (destruct (dg_cells g2); [eapply push_cell_stable; [exact S2|exact E3]|congruence]).
  stp H. rename r0 into g4, E into E4. assert (S4 : stable g g4) by (eapply push_cell_stable; [exact S3|exact E4]).
  stp H. clear E. stp H. assert (S5 : stable g r1). { eapply on_edges_stable; [exact S4| |exact E]. intros E' A. eapply assign_fields; [|exact A]. right. exists n. split; [reflexivity|apply le_n]. }
  clear E. stp H. clear E. stp H. assert (S6 : stable g r3). { eapply on_edges_stable; [exact S5| |exact E]. intros E' A. eapply assign_fields; [|exact A]. right. eexists. split; [reflexivity|lia]. }
  clear E. stp H. assert (S7 : stable g r4). { eapply on_edges_stable; [exact S6| |exact E]. intros E' A. eapply assign_fields; [|exact A]. right. exists n. split; [reflexivity|apply le_n]. }
  clear E. stp H. assert (S8 : stable g r5). { eapply on_edges_stable; [exact S7| |exact E]. intros E' A. eapply assign_fields; [|exact A]. right. eexists. split; [reflexivity|lia]. }
  congruence.
Qed.
Lemma on_edges_length f g g' : (forall E', f (dg_edges g) = Ok E' -> length E' = length (dg_edges g)) -> on_edges f g = Ok g' -> length (dg_edges g') = length (dg_edges g).
Proof. intros HF. unfold on_edges. destruct (f (dg_edges g)) as [E'| |] eqn:F; cbn [obind]; try discriminate. intros H. assert (g' = mk_dg (dg_cells g) (dg_vertices g) E' (dg_cap g)) by congruence. subst g'. cbn. apply HF. reflexivity. Qed.
Lemma insert_circle_stable s1 s3 c a b g g' r : insert_circle_edge s1 s3 c a b g = Ok (g', r) -> stable g g'.
Proof.
  intros H. unfold insert_circle_edge in H. stp H. assert (S1 : stable g r0) by (eapply push_vertex_stable; [apply stable_refl|exact E]). clear E.
  stp H. assert (S2 : stable g r1) by (refine (on_edges_stable _ _ _ _ S1 _ E); intros E' A; refine (assign_fields _ _ _ _ _ _ A); trivial_assign). clear E.
  stp H. assert (S3 : stable g r2) by (refine (on_edges_stable _ _ _ _ S2 _ E); intros E' A; refine (assign_fields _ _ _ _ _ _ A); trivial_assign). clear E. pose proof (sb_length _ _ S3) as L3.
  stp H. assert (S4 : stable g r3) by (eapply push_edge_stable; [exact S3|exact E]). clear E.
  stp H. clear E. stp H. assert (S5 : stable g r5). { eapply on_edges_stable; [exact S4| |exact E]. intros E' A. eapply assign_fields; [|exact A]. right. eexists. split; [reflexivity|exact L3]. } clear E. pose proof (sb_length _ _ S5) as L5.
  stp H. assert (S6 : stable g r6) by (eapply push_edge_stable; [exact S5|exact E]). clear E.
  stp H. clear E. stp H. assert (S7 : stable g r8). { eapply on_edges_stable; [exact S6| |exact E]. intros E' A. eapply assign_fields; [|exact A]. right. eexists. split; [reflexivity|exact L5]. } clear E.
  stp H. assert (S8 : stable g r9). { eapply on_edges_stable; [exact S7| |exact E]. intros E' A. eapply assign_fields; [|exact A]. right. eexists. split; [reflexivity|exact L3]. } clear E.
  stp H. assert (S9 : stable g r10). { eapply on_edges_stable; [exact S8| |exact E]. intros E' A. eapply assign_fields; [|exact A]. right. eexists. split; [reflexivity|exact L5]. } clear E.
  stp H. assert (S10 : stable g r11) by (refine (on_edges_stable _ _ _ _ S9 _ E); intros E' A; refine (assign_fields _ _ _ _ _ _ A); trivial_assign). clear E.
  stp H. assert (S11 : stable g r12).
  { eapply on_edges_stable; [exact S10| |exact E]. intros E' A. clear - A. revert A. generalize (dg_edges r11) as E0. intros E0 A. set (n := length (dg_edges g)).
    assert (T : forall p f E E', harmless n p f -> assign p f E = Ok E' -> length E' = length E /\ forall i, i < n -> cl E' i = cl E i /\ tn E' i = tn E i /\ col E' i = col E i) by (intros p f E1 E2; apply assign_fields).
    assert (TR : forall E1 E2 E3 : list dart, (length E2 = length E1 /\ forall i, i < n -> cl E2 i = cl E1 i /\ tn E2 i = tn E1 i /\ col E2 i = col E1 i) -> (length E3 = length E2 /\ forall i, i < n -> cl E3 i = cl E2 i /\ tn E3 i = tn E2 i /\ col E3 i = col E2 i) ->
      (length E3 = length E1 /\ forall i, i < n -> cl E3 i = cl E1 i /\ tn E3 i = tn E1 i /\ col E3 i = col E1 i)).
    { intros E1 E2 E3 [P1 P2] [Q1 Q2]. split; [congruence|]. intros i I. destruct (P2 i I) as [? [? ?]], (Q2 i I) as [? [? ?]]. repeat split; congruence. }
    stp A. apply T in E; [|trivial_assign]. stp A. apply T in E1; [|trivial_assign]. stp A. clear E2. stp A. apply T in E2; [|trivial_assign]. stp A. clear E3. stp A. apply T in E3; [|trivial_assign]. stp A. clear E4. stp A. apply T in E4; [|trivial_assign]. stp A. clear E5. apply T in A; [|trivial_assign].
    eapply TR; [|exact A]. eapply TR; [|exact E4]. eapply TR; [|exact E3]. eapply TR; [|exact E2]. eapply TR; [|exact E1]. exact E. }
  congruence.
Qed.
Lemma deactivate_out id st st' : deactivate_circle_event id st = Ok st' -> st_out st' = st_out st.
Proof. unfold deactivate_circle_event. destruct (bl_split id (st_beach st)) as [[[a n] b]|]; [|discriminate]. destruct (n_circle n); [|congruence]. destruct (q_deactivate _ _); [|discriminate]. intros H. assert (st' = with_beach (a ++ set_circle None n :: b) (with_queue l st)) by congruence. subst st'. reflexivity. Qed.
Lemma activate_out G s1 s2 s3 b st st' : activate_circle_event G s1 s2 s3 b st = Ok st' -> st_out st' = st_out st.
Proof.
  unfold activate_circle_event. intros H. stp H. destruct r as [c|]; [|congruence]. stp H.
  assert (st' = mk_vst (st_sites st) r (mk_qev (st_fresh st) c b true :: st_queue st) (st_ends st) (S (st_fresh st)) (st_out st)) by congruence. subst st'. reflexivity.
Qed.
Lemma arc_stable a b ev pos st st' id : insert_new_arc a b ev pos st = Ok (st', id) -> stable (st_out st) (st_out st').
Proof.
  unfold insert_new_arc. intros H. destruct (insert_site_edge b ev (st_out st)) as [[out [e1 e2]]| |] eqn:E; cbn [obind] in H; try discriminate. apply insert_site_stable in E.
  destruct (sev_segment ev); stp H; inversion H; exact E.
Qed.
Lemma site_step_stable G ev it st st' it' : site_step G ev it st = Ok (st', it') -> stable (st_out st) (st_out st').
Proof.
  unfold site_step. set (ev' := if sev_segment ev then sev_inverse ev else ev). clearbody ev'. intros H. destruct it as [rid|].
  - destruct (bl_split rid (st_beach st)) as [[[pre r] post]|]; [|discriminate]. destruct (split_last pre) as [[pre' l]|].
    + stp H. apply deactivate_out in E. destruct (insert_new_arc _ _ _ _ _) as [[st1 id]| |] eqn:A; cbn [obind] in H; try discriminate. apply arc_stable in A. stp H. apply activate_out in E0. stp H. apply activate_out in E1. assert (st' = r2) by congruence. subst st'. rewrite E1, E0, <- E. exact A.
    + destruct (insert_new_arc _ _ _ _ _) as [[st1 id]| |] eqn:A; cbn [obind] in H; try discriminate. apply arc_stable in A. stp H. apply activate_out in E. assert (st' = r0) by congruence. subst st'. rewrite E. exact A.
  - destruct (split_last (st_beach st)) as [[pre' l]|]; [|discriminate]. destruct (insert_new_arc _ _ _ _ _) as [[st1 id]| |] eqn:A; cbn [obind] in H; try discriminate. apply arc_stable in A. stp H. apply activate_out in E. assert (st' = r) by congruence. subst st'. rewrite E. exact A.
Qed.
Lemma site_steps_stable G : forall evs it st st', site_steps G evs it st = Ok st' -> stable (st_out st) (st_out st').
Proof.
  induction evs as [|ev evs IH]; intros it st st' H; cbn [site_steps] in H; [assert (st' = st) by congruence; subst; apply stable_refl|].
  destruct (site_step G ev it st) as [[st1 it1]| |] eqn:E; cbn [obind] in H; try discriminate. apply site_step_stable in E. apply IH in H. exact (stable_trans _ _ _ E H).
Qed.
Lemma sweep_step_stable G st st' : sweep_step G st = Ok st' -> stable (st_out st) (st_out st').
Proof.
  assert (PS : forall s, process_site_event G st = Ok s -> stable (st_out st) (st_out s)).
  { intros s H. unfold process_site_event in H. destruct (st_sites st) as [|x rest]; [discriminate|]. destruct (negb (sev_segment x)).
    - stp H. apply site_steps_stable in H. exact H.
    - destruct (same_start (e_p0 x) rest) as [group rest']. apply site_steps_stable in H. exact H. }
  assert (PC : forall s, process_circle_event G st = Ok s -> stable (st_out st) (st_out s)).
  { intros s H. unfold process_circle_event in H. destruct (nth_error _ _) as [e|]; [|discriminate]. destruct (bl_split _ _) as [[[pre n] post]|]; [|discriminate]. destruct (split_last pre) as [[pre' m]|]; [|discriminate].
    set (s3 := if negb (sev_segment (n_left m)) && sev_segment (n_right n) && pt_eqb (e_p1 (n_right n)) (e_p0 (n_left m)) then sev_inverse (n_right n) else n_right n) in *. clearbody s3.
    destruct (insert_circle_edge _ _ _ _ _ _) as [[out [e1 e2]]| |] eqn:E; cbn [obind] in H; try discriminate. apply insert_circle_stable in E.
    stp H. assert (O1 : st_out r = out). { destruct (split_last pre') as [[p l]|]; [|inversion E0; reflexivity]. stp E0. apply deactivate_out in E1. apply activate_out in E0. rewrite E0, E1. reflexivity. }
    destruct post as [|x post]; [assert (s = r) by congruence; subst s; rewrite O1; exact E|]. stp H. apply deactivate_out in E1. apply activate_out in H. rewrite H, E1, O1. exact E. }
  unfold sweep_step. intros H. stp H. assert (st' = with_queue (pop_inactive (length (st_queue r)) G (st_queue r)) r) by congruence. subst st'. cbn [with_queue st_out].
  destruct (st_queue st) eqn:Q; [apply PS; exact E|]. destruct (st_sites st); [apply PC; exact E|]. destruct (nth_error _ _); [|discriminate]. destruct (g_site_first _ _ _); [apply PS|apply PC]; exact E.
Qed.
