(* Incident edges, removal of vertices and closing of the cells. *)
From Verif Require Import Base Units Outcome VorSpec VorModel VDModel VDSpec VDMem VDInsert VDOrbit VDBuild VDDrop.
Local Open Scope nat_scope.

(* ---------- incident edges ---------- *)
(* r gives for every number one of the first k edges with this value of the field *)
Definition inc (f : nat -> option nat) (k : nat) (r : nat -> option nat) : Prop :=
  forall c, (forall i, r c = Some i -> i < k /\ f i = Some c) /\ (r c = None -> forall i, i < k -> f i <> Some c).
Definition put {A : Type} (set : option nat -> A -> A) (r : nat -> option nat) (l0 l : list A) : Prop :=
  forall c, nth_error l c = option_map (set (r c)) (nth_error l0 c).
Lemma inc_some f k r c : inc f k r -> f k = Some c -> inc f (S k) (fun x => if x =? c then Some k else r x).
Proof.
  intros I H x. destruct (I x) as [I1 I2]. destruct (Nat.eqb_spec x c) as [->|N].
  - split; [intros i K; assert (i = k) by congruence; subst i; split; [lia|exact H]|discriminate].
  - split.
    + intros i K. destruct (I1 i K). split; [lia|assumption].
    + intros K i L. destruct (Nat.eq_dec i k) as [->|M]; [congruence|]. apply I2; [exact K|lia].
Qed.
Lemma inc_none f k r : inc f k r -> f k = None -> inc f (S k) r.
Proof.
  intros I H x. destruct (I x) as [I1 I2]. split.
  - intros i K. destruct (I1 i K). split; [lia|assumption].
  - intros K i L. destruct (Nat.eq_dec i k) as [->|M]; [congruence|]. apply I2; [exact K|lia].
Qed.
Lemma put_length {A : Type} (set : option nat -> A -> A) r (l0 l : list A) : put set r l0 l -> length l = length l0.
Proof.
  intros P. destruct (Nat.lt_trichotomy (length l) (length l0)) as [H|[H|H]]; [|exact H|]; exfalso.
  - destruct (nth_some _ _ H) as [a A0]. specialize (P (length l)). rewrite A0 in P. assert (N : nth_error l (length l) = None) by (apply nth_error_None; lia). rewrite N in P. discriminate.
  - destruct (nth_some _ _ H) as [a A0]. specialize (P (length l0)). rewrite A0 in P. assert (N : nth_error l0 (length l0) = None) by (apply nth_error_None; lia). rewrite N in P. discriminate.
Qed.
Lemma put_assign {A : Type} (set : option nat -> A -> A) r (l0 l : list A) c k : (forall o o' a, set o (set o' a) = set o a) -> put set r l0 l -> c < length l0 ->
  assign (Some c) (set (Some k)) l = Ok (upd c (set (Some k)) l) /\ put set (fun x => if x =? c then Some k else r x) l0 (upd c (set (Some k)) l).
Proof.
  intros SS P H. split; [apply assign_ok; rewrite (put_length _ _ _ _ P); exact H|]. intros x. rewrite nth_upd, (P x), (Nat.eqb_sym x c). destruct (c =? x); [|reflexivity].
  destruct (nth_error l0 x) as [a|]; [|reflexivity]. cbn [option_map]. rewrite SS. reflexivity.
Qed.
Lemma set_incident_ok E : forall l k cells0 cells V0 V r s, length E = k + length l -> (forall i, nth_error l i = nth_error E (k + i)) ->
  (forall i, i < length E -> exists c, cl E i = Some c /\ c < length cells0) -> (forall i v, vx E i = Some v -> v < length V0) ->
  put set_c_incident r cells0 cells -> put set_v_incident s V0 V -> inc (cl E) k r -> inc (vx E) k s ->
  exists cells' V' r' s', set_incident k l cells V = Ok (cells', V') /\ put set_c_incident r' cells0 cells' /\ put set_v_incident s' V0 V' /\ inc (cl E) (length E) r' /\ inc (vx E) (length E) s'.
Proof.
  induction l as [|d l IH]; intros k cells0 cells V0 V r s L N HC HV PC PV IC IV.
  - exists cells, V, r, s. cbn [length] in L. rewrite Nat.add_0_r in L. rewrite L. cbn [set_incident]. tauto.
  - cbn [set_incident]. cbn [length] in L. assert (KL : k < length E) by lia. destruct (HC k KL) as [c [C1 C2]].
    pose proof (N 0) as N0. rewrite Nat.add_0_r in N0. cbn [nth_error] in N0.
    assert (DC : d_cell d = Some c) by (unfold cl, fld in C1; rewrite <- N0 in C1; exact C1).
    destruct (put_assign set_c_incident r cells0 cells c k (fun _ _ _ => eq_refl) PC C2) as [A1 A2]. rewrite DC, A1. cbn [obind].
    assert (N' : forall i, nth_error l i = nth_error E (S k + i)) by (intros i; specialize (N (S i)); cbn [nth_error] in N; rewrite N; f_equal; lia).
    assert (VX : d_vertex d = vx E k) by (unfold vx, fld; rewrite <- N0; reflexivity).
    destruct (d_vertex d) as [v|] eqn:DV.
    + destruct (put_assign set_v_incident s V0 V v k (fun _ _ _ => eq_refl) PV) as [B1 B2]; [apply (HV k); symmetry; exact VX|]. rewrite B1. cbn [obind].
      apply (IH (S k) cells0 _ V0 _ (fun x => if x =? c then Some k else r x) (fun x => if x =? v then Some k else s x)); try assumption; [lia|apply inc_some; assumption|apply inc_some; [assumption|congruence]].
    + cbn [obind]. apply (IH (S k) cells0 _ V0 _ (fun x => if x =? c then Some k else r x) s); try assumption; [lia|apply inc_some; assumption|apply inc_none; [assumption|congruence]].
Qed.

(* ---------- removal of vertices without edges ---------- *)
Section Vertices.
Variables (C : nat) (V0 : list vvertex) (E2 : list dart) (s : nat -> option nat).
Let nV := length V0.
Hypothesis W2 : wf C nV E2.
Hypothesis AP2 : apart E2.
Hypothesis IV : inc (vx E2) (length E2) s.
(* every vertex knows the edge that s tells *)
Hypothesis S0 : forall u a, nth_error V0 u = Some a -> v_incident a = s u.
Record same_but_vertices (E : list dart) : Prop := mk_sbv {
  sb_len : length E = length E2;
  sb_cl : forall i, cl E i = cl E2 i;
  sb_tn : forall i, tn E i = tn E2 i;
  sb_nx : forall i, nx E i = nx E2 i;
  sb_pv : forall i, pv E i = pv E2 i;
  sb_col : forall i, col E i = col E2 i
}.
Record vinv (it last : nat) (V : list vvertex) (E : list dart) : Prop := mk_vinv {
  n_len : length V = nV;
  n_le : last <= it;
  n_it : it <= nV;
  n_rest : forall u, it <= u -> nth_error V u = nth_error V0 u;
  n_sb : same_but_vertices E;
  n_wf : wf C nV E;
  n_zero : last = 0 -> forall u, u < it -> s u = None;
  n_ren : single (fun i => i <? length E2) E2 -> exists ren,
    (forall i, vx E i = match vx E2 i with Some u => Some (if u <? it then ren u else u) | None => None end) /\
    (forall u, u < it -> s u <> None -> ren u < last /\ nth_error V (ren u) = nth_error V0 u) /\
    (forall j, j < last -> exists u, u < it /\ s u <> None /\ ren u = j) /\
    (forall u w, u < w -> w < it -> s u <> None -> s w <> None -> ren u < ren w)
}.
Lemma setv_sb l v E : same_but_vertices E -> same_but_vertices (setv l v E).
Proof.
  intros [A1 A2 A3 A4 A5 A6]. constructor; intros; rewrite ?setv_length, ?setv_cl, ?setv_tn, ?setv_nx, ?setv_pv, ?setv_col; auto.
Qed.
Lemma vert_step it last V E : vinv it last V E -> it < nV -> exists V' E' last', drop_vertices 1 it last V E = Ok (V', E', last') /\ vinv (S it) last' V' E' /\
  forall n, drop_vertices (S n) it last V E = drop_vertices n (S it) last' V' E'.
Proof.
  intros I IN. pose proof (n_len _ _ _ _ I) as LV. pose proof (n_le _ _ _ _ I) as LE. destruct (nth_some it V0 IN) as [w NW].
  pose proof (n_rest _ _ _ _ I it (le_n _)) as NR. rewrite NW in NR. cbn [drop_vertices]. rewrite (deref_ok _ _ _ NR). cbn [obind]. rewrite (S0 _ _ NW).
  destruct (s it) as [e|] eqn:SI.
  - destruct (IV it) as [IV1 _]. destruct (IV1 e SI) as [EL VE2].
    destruct (Nat.eqb_spec it last) as [K|K].
    + cbn [obind]. exists V, E, (S last). split; [reflexivity|]. split; [|reflexivity]. subst last. constructor.
      * exact LV.
      * lia.
      * lia.
      * intros u U. apply (n_rest _ _ _ _ I). lia.
      * exact (n_sb _ _ _ _ I).
      * exact (n_wf _ _ _ _ I).
      * lia.
      * intros SG. destruct (n_ren _ _ _ _ I SG) as [ren [R1 [R2 [R3 R4]]]]. exists (fun u => if u =? it then it else ren u). split; [|split; [|split]].
        { intros i. rewrite R1. destruct (vx E2 i) as [u|]; [|reflexivity]. destruct (Nat.eqb_spec u it) as [->|M]; [rewrite Nat.ltb_irrefl; destruct (it <? S it); reflexivity|].
          destruct (Nat.ltb_spec u it), (Nat.ltb_spec u (S it)); try reflexivity; lia. }
        { intros u U SU. destruct (Nat.eqb_spec u it) as [->|M]; [split; [lia|apply (n_rest _ _ _ _ I); lia]|]. destruct (R2 u) as [Q1 Q2]; [lia|exact SU|]. split; [lia|exact Q2]. }
        { intros j J. destruct (Nat.eq_dec j it) as [->|M]; [exists it; rewrite Nat.eqb_refl; split; [lia|]; split; [congruence|reflexivity]|].
          destruct (R3 j) as [u [U1 [U2 U3]]]; [lia|]. exists u. destruct (Nat.eqb_spec u it); [lia|]. repeat split; [lia|exact U2|exact U3]. }
        { intros u x UX X SU SX. destruct (Nat.eqb_spec u it); [lia|]. destruct (Nat.eqb_spec x it) as [->|M]; [apply (R2 u); [lia|exact SU]|]. apply R4; try assumption. lia. }
    + assert (APE : apart E) by (intros i; rewrite (sb_len _ (n_sb _ _ _ _ I)), !(sb_cl _ (n_sb _ _ _ _ I)); apply AP2).
      pose proof (wf_wfl _ _ _ (n_wf _ _ _ _ I) APE) as WL.
      assert (EL' : e < length E) by (rewrite (sb_len _ (n_sb _ _ _ _ I)); exact EL).
      assert (PE : (e <? length E) = true) by (apply Nat.ltb_lt; exact EL').
      assert (VE : exists v, vx E e = Some v).
      { destruct (vx E e) as [v|] eqn:Q; [exists v; reflexivity|]. exfalso. apply (w_null _ _ _ (n_wf _ _ _ _ I) e EL') in Q. rewrite (sb_pv _ (n_sb _ _ _ _ I)) in Q. apply (w_null _ _ _ W2 e EL) in Q. congruence. }
      destruct VE as [v VE]. destruct (cycle _ _ _ _ WL e v PE VE) as [l [CY [ND [PL LL]]]].
      rewrite assign_ok by lia. cbn [obind].
      assert (RL : relabel (length E) last (Some e) (Some e) E = Ok (setv (e :: l) last E)).
      { apply relabel_ok; [exact CY|apply NoDup_cons_iff in ND; tauto| |exact LL]. intros x y X R. destruct (PL x X) as [PX _]. destruct (rot_step _ _ _ _ WL _ _ PX R) as [PY _].
        rewrite (l_tn _ _ _ _ WL) by exact (l_tw _ _ _ _ WL _ PY). rewrite tw_tw. reflexivity. }
      rewrite RL. cbn [obind]. exists (upd last (fun _ => w) V), (setv (e :: l) last E), (S last). split; [reflexivity|]. split; [|reflexivity].
      assert (LIN : forall i, In i (e :: l) -> i < length E) by (intros i Q; apply (l_len _ _ _ _ WL); apply PL; exact Q).
      assert (VXS : forall j, vx (setv (e :: l) last E) j = if mem j (e :: l) then Some last else vx E j) by (intros j; apply setv_vx; exact LIN).
      constructor.
      * rewrite length_upd. exact LV.
      * lia.
      * lia.
      * intros u U. rewrite nth_upd. destruct (Nat.eqb_spec last u); [lia|]. apply (n_rest _ _ _ _ I). lia.
      * apply setv_sb. exact (n_sb _ _ _ _ I).
      * destruct (n_wf _ _ _ _ I) as [A1 A2 A3 A4 A5 A6 A7 A8 A9 A10].
        assert (CR : forall i j, nx E i = Some j -> mem j (e :: l) = mem (tw i) (e :: l)).
        { intros i j H. pose proof (A5 _ _ H) as PJ. assert (R : rot E j = Some (tw i)) by (unfold rot; rewrite PJ; reflexivity).
          assert (JL : (j <? length E) = true) by (apply Nat.ltb_lt; eapply pv_lt; exact PJ).
          apply bool_ext. rewrite !mem_in. exact (cycle_rot _ _ _ _ WL e l j (tw i) (fun q Q => proj1 (PL q Q)) CY JL R). }
        constructor; rewrite ?setv_length.
        { exact A1. }
        { intros i H. rewrite setv_tn. auto. }
        { intros i H. rewrite setv_cl. auto. }
        { intros i u H. rewrite VXS in H. destruct (mem i (e :: l)); [assert (u = last) by congruence; lia|exact (A4 i u H)]. }
        { intros i j H. rewrite setv_nx in H. rewrite setv_pv. auto. }
        { intros i j H. rewrite setv_pv in H. rewrite setv_nx. auto. }
        { intros i H. rewrite VXS, setv_pv. destruct (mem_dec i (e :: l)) as [[M ->]|[_ ->]]; [|auto]. split; [discriminate|]. intros Q. apply (A7 i H) in Q. destruct (PL i M) as [_ Y]. congruence. }
        { intros i H. rewrite setv_pv, setv_nx. auto. }
        { intros i j H. rewrite setv_nx in H. rewrite !setv_cl. auto. }
        { intros i j H. rewrite setv_nx in H. rewrite !VXS. rewrite (CR i j H). destruct (mem (tw i) (e :: l)); [reflexivity|auto]. }
      * lia.
      * intros SG. destruct (n_ren _ _ _ _ I SG) as [ren [R1 [R2 [R3 R4]]]].
        assert (ROT : forall y, rot E y = rot E2 y) by (intros y; unfold rot; rewrite (sb_pv _ (n_sb _ _ _ _ I)); reflexivity).
        pose proof (wf_wfl _ _ _ W2 AP2) as WL2.
        assert (PE2 : (e <? length E2) = true) by (apply Nat.ltb_lt; exact EL).
        assert (CY2 : chain (rot E2) e l (Some e)) by (apply (chain_ext (rot E)); [intros y _; symmetry; apply ROT|exact CY]).
        assert (MEM : forall i, mem i (e :: l) = true <-> vx E2 i = Some it).
        { intros i. rewrite mem_in. split.
          - intros Q. exact (proj1 (chain_closed (rot E2) (fun y => vx E2 y = Some it /\ (y <? length E2) = true) l e _ CY2 (conj VE2 PE2) (fun y z Y R => let RS := rot_step _ _ _ _ WL2 y z (proj2 Y) R in conj (eq_trans (proj1 (proj2 (proj2 RS))) (proj1 Y)) (proj1 RS)) i Q)).
          - intros Q. destruct (SG e it PE2 VE2) as [k [K1 [K2 [K3 K4]]]]. assert (IL : (i <? length E2) = true) by (apply Nat.ltb_lt; eapply vx_lt; exact Q).
            refine (proj1 (chain_closed (rot E2) (fun y => In y (e :: l) /\ (y <? length E2) = true) k e _ K1 _ _ i (K4 i IL Q))).
            + split; [left; reflexivity|exact PE2].
            + intros y z [Y1 Y2] R. split; [|destruct (rot_step _ _ _ _ WL2 _ _ Y2 R) as [Z _]; exact Z].
              assert (PL2 : forall q, In q (e :: l) -> (q <? length E2) = true) by (intros q Hq; rewrite <- (sb_len _ (n_sb _ _ _ _ I)); exact (proj1 (PL q Hq))).
              apply (cycle_rot _ _ _ _ WL2 e l y z PL2 CY2 Y2 R). exact Y1. }
        exists (fun u => if u =? it then last else ren u). split; [|split; [|split]].
        { intros i. rewrite VXS. destruct (vx E2 i) as [u|] eqn:U.
          - destruct (Nat.eqb_spec u it) as [->|M].
            + rewrite (proj2 (MEM i) U). destruct (Nat.ltb_spec it (S it)); [reflexivity|lia].
            + destruct (mem i (e :: l)) eqn:Q; [apply MEM in Q; congruence|]. rewrite R1, U. destruct (Nat.ltb_spec u it), (Nat.ltb_spec u (S it)); try reflexivity; lia.
          - destruct (mem i (e :: l)) eqn:Q; [apply MEM in Q; congruence|]. rewrite R1, U. reflexivity. }
        { intros u U SU. destruct (Nat.eqb_spec u it) as [->|M].
          - split; [lia|]. rewrite nth_upd, Nat.eqb_refl. destruct (nth_some last V) as [x X]; [lia|]. rewrite X. cbn [option_map]. symmetry. exact NW.
          - destruct (R2 u) as [Q1 Q2]; [lia|exact SU|]. split; [lia|]. rewrite nth_upd. destruct (Nat.eqb_spec last (ren u)); [lia|exact Q2]. }
        { intros j J. destruct (Nat.eq_dec j last) as [->|M]; [exists it; rewrite Nat.eqb_refl; split; [lia|]; split; [congruence|reflexivity]|].
          destruct (R3 j) as [u [U1 [U2 U3]]]; [lia|]. exists u. destruct (Nat.eqb_spec u it); [lia|]. repeat split; [lia|exact U2|exact U3]. }
        { intros u x UX X SU SX. destruct (Nat.eqb_spec u it); [lia|]. destruct (Nat.eqb_spec x it) as [->|M]; [apply (R2 u); [lia|exact SU]|]. apply R4; try assumption. lia. }
  - exists V, E, last. split; [reflexivity|]. split; [|reflexivity]. destruct (IV it) as [_ IV2]. specialize (IV2 SI). constructor.
    + exact LV.
    + lia.
    + lia.
    + intros u U. apply (n_rest _ _ _ _ I). lia.
    + exact (n_sb _ _ _ _ I).
    + exact (n_wf _ _ _ _ I).
    + intros Z u U. destruct (Nat.eq_dec u it) as [->|M]; [exact SI|]. apply (n_zero _ _ _ _ I Z). lia.
    + intros SG. destruct (n_ren _ _ _ _ I SG) as [ren [R1 [R2 [R3 R4]]]]. exists ren. split; [|split; [|split]].
      * intros i. rewrite R1. destruct (vx E2 i) as [u|] eqn:U; [|reflexivity]. assert (u <> it) by (intros ->; apply (IV2 i); [eapply vx_lt; exact U|exact U]).
        destruct (Nat.ltb_spec u it), (Nat.ltb_spec u (S it)); try reflexivity; lia.
      * intros u U SU. apply R2; [|exact SU]. assert (u <> it) by congruence. lia.
      * intros j J. destruct (R3 j J) as [u [U1 [U2 U3]]]. exists u. repeat split; [lia|exact U2|exact U3].
      * intros u x UX X SU SX. apply R4; try assumption. assert (x <> it) by congruence. lia.
Qed.
Lemma vert_loop : forall m it last V E, vinv it last V E -> it + m = nV -> exists V' E' last', drop_vertices m it last V E = Ok (V', E', last') /\ vinv nV last' V' E'.
Proof.
  induction m as [|m IH]; intros it last V E I M.
  - exists V, E, last. split; [reflexivity|]. replace nV with it by lia. exact I.
  - destruct (vert_step it last V E I) as [V1 [E1 [last1 [_ [I1 N]]]]]; [lia|]. rewrite N. apply IH; [exact I1|lia].
Qed.
Lemma vert_ok : exists V' E' last', drop_vertices nV 0 0 V0 E2 = Ok (V', E', last') /\ vinv nV last' V' E'.
Proof.
  apply vert_loop; [|lia]. constructor; try reflexivity; try lia.
  - constructor; reflexivity.
  - exact W2.
  - intros _. exists (fun u => u). split; [|split; [|split]]; try lia. intros i. destruct (vx E2 i); reflexivity.
Qed.
End Vertices.

(* ---------- closing of the cells ---------- *)
Record lnk (C : nat) (E : list dart) : Prop := mk_lnk {
  q_even : Nat.even (length E) = true;
  q_tn : forall i, i < length E -> tn E i = Some (tw i);
  q_cl : forall i, i < length E -> exists c, cl E i = Some c /\ c < C;
  q_nx : forall i j, nx E i = Some j -> pv E j = Some i;
  q_pv : forall i j, pv E i = Some j -> nx E j = Some i;
  q_pnull : forall i, i < length E -> pv E i = None -> vx E i = None;
  q_nnull : forall i, i < length E -> nx E i = None -> vx E (tw i) = None;
  q_ncl : forall i j, nx E i = Some j -> cl E j = cl E i;
  q_nvx : forall i j, nx E i = Some j -> vx E j = vx E (tw i)
}.
Lemma wf_lnk C V E : wf C V E -> lnk C E.
Proof.
  intros [A1 A2 A3 A4 A5 A6 A7 A8 A9 A10]. constructor; try assumption.
  - intros i H K. apply A7; assumption.
  - intros i H K. pose proof (tw_lt i _ A1 H) as T. apply A7; [exact T|]. apply A8; [exact T|]. rewrite tw_tw. exact K.
Qed.
Lemma walk_left_null E e : forall l x fuel, chain (pv E) x l None -> (forall y, In y (x :: l) -> y < length E) -> ~ In e l -> length (x :: l) <= fuel ->
  exists y, walk_left fuel (Some e) (Some x) E = Ok (Some y) /\ In y (x :: l) /\ pv E y = None.
Proof.
  induction l as [|u l IH]; intros x fuel H B N F; destruct fuel as [|fuel]; cbn [length] in F; try lia; cbn [walk_left]; rewrite p_prev_ok by (apply B; left; reflexivity); cbn [obind]; cbn [chain] in H.
  - rewrite H. exists x. split; [reflexivity|]. split; [left; reflexivity|exact H].
  - destruct H as [H1 H2]. rewrite H1. cbn [ptr_eqb]. destruct (Nat.eqb_spec u e) as [->|K]; [exfalso; apply N; left; reflexivity|].
    destruct (IH u fuel H2) as [y [Y1 [Y2 Y3]]]; [intros z Z; apply B; right; exact Z|intros Z; apply N; right; exact Z|cbn [length]; lia|].
    exists y. split; [exact Y1|]. split; [right; exact Y2|exact Y3].
Qed.
Lemma walk_left_cycle E e : forall l x fuel, chain (pv E) x l (Some e) -> (forall y, In y (x :: l) -> y < length E) -> ~ In e l -> length (x :: l) <= fuel ->
  walk_left fuel (Some e) (Some x) E = Ok (Some e).
Proof.
  induction l as [|u l IH]; intros x fuel H B N F; destruct fuel as [|fuel]; cbn [length] in F; try lia; cbn [walk_left]; rewrite p_prev_ok by (apply B; left; reflexivity); cbn [obind]; cbn [chain] in H.
  - rewrite H. cbn [ptr_eqb]. rewrite Nat.eqb_refl. reflexivity.
  - destruct H as [H1 H2]. rewrite H1. cbn [ptr_eqb]. destruct (Nat.eqb_spec u e) as [->|K]; [exfalso; apply N; left; reflexivity|].
    apply IH; [exact H2|intros z Z; apply B; right; exact Z|intros Z; apply N; right; exact Z|cbn [length]; lia].
Qed.
Lemma walk_right_null E : forall l x fuel, chain (nx E) x l None -> (forall y, In y (x :: l) -> y < length E) -> length (x :: l) <= fuel ->
  exists y, walk_right fuel (Some x) E = Ok (Some y) /\ In y (x :: l) /\ nx E y = None.
Proof.
  induction l as [|u l IH]; intros x fuel H B F; destruct fuel as [|fuel]; cbn [length] in F; try lia; cbn [walk_right]; rewrite p_next_ok by (apply B; left; reflexivity); cbn [obind]; cbn [chain] in H.
  - rewrite H. exists x. split; [reflexivity|]. split; [left; reflexivity|exact H].
  - destruct H as [H1 H2]. rewrite H1. destruct (IH u fuel H2) as [y [Y1 [Y2 Y3]]]; [intros z Z; apply B; right; exact Z|cbn [length]; lia|].
    exists y. split; [exact Y1|]. split; [right; exact Y2|exact Y3].
Qed.
Definition closed (E : list dart) (e : nat) : Prop := exists l, chain (nx E) e l (Some e) /\ NoDup (e :: l).
(* links are only added *)
Record grown (E E' : list dart) : Prop := mk_grown {
  g_len : length E' = length E;
  g_cl : forall i, cl E' i = cl E i;
  g_vx : forall i, vx E' i = vx E i;
  g_tn : forall i, tn E' i = tn E i;
  g_col : forall i, col E' i = col E i;
  g_nx : forall i j, nx E i = Some j -> nx E' i = Some j;
  g_pv : forall i j, pv E i = Some j -> pv E' i = Some j
}.
Lemma grown_refl E : grown E E.
Proof. constructor; auto. Qed.
Lemma grown_trans E F G : grown E F -> grown F G -> grown E G.
Proof. intros [A1 A2 A3 A4 A5 A6 A7] [B1 B2 B3 B4 B5 B6 B7]. constructor; intros; try congruence; auto. Qed.
Lemma chain_grown E F : grown E F -> forall l x z, chain (nx E) x l (Some z) -> chain (nx F) x l (Some z).
Proof.
  intros G. induction l as [|u l IH]; intros x z H; cbn [chain] in *; [apply (g_nx _ _ G); exact H|]. destruct H as [H1 H2]. split; [apply (g_nx _ _ G); exact H1|auto].
Qed.
Lemma closed_grown E F e : grown E F -> closed E e -> closed F e.
Proof. intros G [l [H N]]. exists l. split; [eapply chain_grown; eassumption|exact N]. Qed.
Lemma pv_chain_cycle E : (forall i j, pv E i = Some j -> nx E j = Some i) -> forall l x y, chain (pv E) x l (Some y) -> chain (nx E) y (rev l) (Some x).
Proof.
  intros Q. induction l as [|u l IH]; intros x y H; cbn [chain rev] in *; [auto|]. destruct H as [H1 H2]. apply chain_app. split; [apply IH; exact H2|cbn [chain]; auto].
Qed.

Lemma link_cell_ok C E c e : lnk C E -> c_incident c = Some e -> e < length E -> exists E', link_cell c E = Ok E' /\ lnk C E' /\ grown E E' /\ closed E' e.
Proof.
  intros W CI EL. pose proof W as [A1 A2 A3 A4 A5 A6 A7 A8 A9]. unfold link_cell. rewrite CI.
  destruct (walk (pv E) (length E)) with (x := e) as [l [z [CH [ND [Z LT]]]]]; [intros a b d X Y; apply A5 in X; apply A5 in Y; congruence|intros a b X; apply A5 in X; eapply nx_lt; exact X|exact EL|].
  assert (LL : length (e :: l) <= length E) by (apply small_length; assumption).
  assert (NE : ~ In e l) by (apply NoDup_cons_iff in ND; tauto).
  destruct Z as [->| ->].
  - destruct (walk_left_null E e l e (length E) CH LT NE LL) as [le [WL [IL PL]]]. rewrite WL. cbn [obind]. rewrite (p_prev_ok E le) by (apply LT; exact IL). rewrite PL. cbn [obind].
    destruct (walk (nx E) (length E)) with (x := e) as [k [z [CH2 [ND2 [Z LT2]]]]]; [intros a b d X Y; apply A4 in X; apply A4 in Y; congruence|intros a b X; apply A4 in X; eapply pv_lt; exact X|exact EL|].
    assert (LK : length (e :: k) <= length E) by (apply small_length; assumption).
    (* the chain to the right does not come back *)
    destruct Z as [->| ->].
    2:{ exfalso. assert (HC : forall y, In y (e :: l) -> In y (e :: k)).
        { apply (chain_closed (pv E) (fun y => In y (e :: k)) l e None CH); [left; reflexivity|]. intros y w Y H. apply A5 in H.
          destruct (in_dec Nat.eq_dec w (e :: k)) as [J|J]; [exact J|]. exfalso. destruct Y as [<-|Y].
          - destruct (chain_last _ _ _ _ CH2) as [q [Q1 Q2]]. assert (q = w) by (apply A4 in Q2; apply A4 in H; congruence). subst q. exact (J Q1).
          - destruct (chain_pred _ _ _ _ _ CH2 Y) as [q [Q1 [Q2 _]]]. assert (q = w) by (apply A4 in Q2; apply A4 in H; congruence). subst q. exact (J Q1). }
        apply HC in IL. destruct IL as [<-|IL].
        - destruct (chain_last _ _ _ _ CH2) as [q [Q1 Q2]]. apply A4 in Q2. congruence.
        - destruct (chain_pred _ _ _ _ _ CH2 IL) as [q [Q1 [Q2 _]]]. apply A4 in Q2. congruence. }
    destruct (walk_right_null E k e (length E) CH2 LT2 LK) as [ri [WR [IR NR]]]. rewrite WR. cbn [obind].
    assert (LL2 : le < length E) by (apply LT; exact IL). assert (LR2 : ri < length E) by (apply LT2; exact IR).
    rewrite assign_ok by exact LL2. cbn [obind]. rewrite assign_ok by (rewrite length_upd; exact LR2).
    set (E' := upd ri (set_next (Some le)) (upd le (set_prev (Some ri)) E)).
    assert (Len : length E' = length E) by (unfold E'; rewrite !length_upd; reflexivity).
    assert (Ncl : forall i, cl E' i = cl E i) by (intros i; unfold E'; rewrite cl_set_next, cl_set_prev; reflexivity).
    assert (Nvx : forall i, vx E' i = vx E i) by (intros i; unfold E'; rewrite vx_set_next, vx_set_prev; reflexivity).
    assert (Ntn : forall i, tn E' i = tn E i) by (intros i; unfold E'; rewrite tn_set_next, tn_set_prev; reflexivity).
    assert (Nnx : forall i, nx E' i = if ri =? i then Some le else nx E i) by (intros i; unfold E'; rewrite nx_set_next by (rewrite length_upd; exact LR2); rewrite nx_set_prev; reflexivity).
    assert (Npv : forall i, pv E' i = if le =? i then Some ri else pv E i) by (intros i; unfold E'; rewrite pv_set_next, pv_set_prev by exact LL2; reflexivity).
    assert (CLl : cl E le = cl E e).
    { apply (chain_closed (pv E) (fun y => cl E y = cl E e) l e None CH eq_refl); [|exact IL]. intros y w Y H. apply A5 in H. apply A8 in H. congruence. }
    assert (CLr : cl E ri = cl E e).
    { apply (chain_closed (nx E) (fun y => cl E y = cl E e) k e None CH2 eq_refl); [|exact IR]. intros y w Y H. apply A8 in H. congruence. }
    assert (W' : lnk C E').
    { constructor.
      - rewrite Len. exact A1.
      - intros i H. rewrite Ntn. apply A2. lia.
      - intros i H. rewrite Ncl. apply A3. lia.
      - intros i j H. rewrite Nnx in H. rewrite Npv. destruct (Nat.eqb_spec ri i) as [->|N]; [replace j with le by congruence; rewrite Nat.eqb_refl; reflexivity|].
        destruct (Nat.eqb_spec le j) as [->|M]; [apply A4 in H; congruence|auto].
      - intros i j H. rewrite Npv in H. rewrite Nnx. destruct (Nat.eqb_spec le i) as [->|N]; [replace j with ri by congruence; rewrite Nat.eqb_refl; reflexivity|].
        destruct (Nat.eqb_spec ri j) as [->|M]; [apply A5 in H; congruence|auto].
      - intros i H. rewrite Npv, Nvx. destruct (le =? i); [discriminate|]. apply A6. lia.
      - intros i H. rewrite Nnx, Nvx. destruct (ri =? i); [discriminate|]. apply A7. lia.
      - intros i j H. rewrite Nnx in H. rewrite !Ncl. destruct (Nat.eqb_spec ri i) as [->|N]; [replace j with le by congruence; congruence|auto].
      - intros i j H. rewrite Nnx in H. rewrite !Nvx. destruct (Nat.eqb_spec ri i) as [->|N]; [|auto]. replace j with le by congruence. rewrite (A6 le LL2 PL), (A7 i LR2 NR). reflexivity. }
    exists E'. split; [reflexivity|]. split; [exact W'|]. split.
    + constructor; try assumption.
      * intros i. unfold E', col. rewrite !fld_upd. destruct ((ri =? i) && _), ((le =? i) && _); unfold fld; destruct (nth_error _ i); reflexivity.
      * intros i j H. rewrite Nnx. destruct (Nat.eqb_spec ri i) as [->|N]; [congruence|exact H].
      * intros i j H. rewrite Npv. destruct (Nat.eqb_spec le i) as [->|N]; [congruence|exact H].
    + pose proof W' as [B1 B2 B3 B4 B5 B6 B7 B8 B9].
      destruct (walk (nx E') (length E')) with (x := e) as [m [z [CH3 [ND3 [Z LT3]]]]]; [intros a b d X Y; apply B4 in X; apply B4 in Y; congruence|intros a b X; apply B4 in X; eapply pv_lt; exact X|lia|].
      destruct Z as [->| ->]; [|exists m; split; assumption]. exfalso.
      assert (STEP : forall y, In y (e :: l) \/ In y (e :: k) -> exists w, nx E' y = Some w /\ (In w (e :: l) \/ In w (e :: k))).
      { assert (RK : forall y, In y (e :: k) -> exists w, nx E' y = Some w /\ (In w (e :: l) \/ In w (e :: k))).
        { intros y Y. rewrite Nnx. destruct (Nat.eqb_spec ri y) as [->|N]; [exists le; split; [reflexivity|left; exact IL]|].
          destruct (chain_succ _ _ _ _ _ CH2 Y) as [Q|[w [Q1 Q2]]]; [|exists w; split; [exact Q1|right; right; exact Q2]].
          exfalso. apply N. clear -CH2 ND2 IR NR Y Q. revert e CH2 ND2 IR Y. induction k as [|u k IH]; intros e CH ND IR Y.
          - destruct IR as [<-|[]], Y as [<-|[]]. reflexivity.
          - cbn [chain] in CH. destruct CH as [C1 C2]. destruct IR as [<-|IR]; [congruence|]. destruct Y as [<-|Y]; [congruence|]. apply NoDup_cons_iff in ND. exact (IH u C2 (proj2 ND) IR Y). }
        intros y [Y|Y]; [|exact (RK y Y)]. destruct Y as [<-|Y]; [apply RK; left; reflexivity|].
        destruct (chain_pred _ _ _ _ _ CH Y) as [w [Q1 [Q2 _]]]. apply A5 in Q2. exists w. split; [|left; exact Q1]. rewrite Nnx. destruct (Nat.eqb_spec ri y) as [->|N]; [congruence|exact Q2]. }
      destruct (chain_last _ _ _ _ CH3) as [q [Q1 Q2]].
      assert (QQ : In q (e :: l) \/ In q (e :: k)).
      { apply (chain_closed (nx E') (fun y => In y (e :: l) \/ In y (e :: k)) m e None CH3); [left; left; reflexivity| |exact Q1]. intros y w Y H. destruct (STEP y Y) as [w' [X1 X2]]. replace w with w' by congruence. exact X2. }
      destruct (STEP q QQ) as [w [X _]]. congruence.
  - rewrite (walk_left_cycle E e l e (length E) CH LT NE LL). cbn [obind]. rewrite p_prev_ok by exact EL. cbn [obind].
    assert (exists p, pv E e = Some p) as [p ->] by (destruct l as [|u l]; cbn [chain] in CH; [exists e; exact CH|exists u; tauto]).
    exists E. split; [reflexivity|]. split; [exact W|]. split; [apply grown_refl|]. exists (rev l). split; [apply pv_chain_cycle; assumption|].
    apply NoDup_cons_iff in ND. apply NoDup_cons_iff. split; [rewrite <- in_rev; tauto|apply NoDup_rev; tauto].
Qed.
Lemma link_cells_ok C : forall l E, lnk C E -> (forall c e, In c l -> c_incident c = Some e -> e < length E) ->
  exists E', link_cells l E = Ok E' /\ lnk C E' /\ grown E E' /\ (forall c e, In c l -> c_incident c = Some e -> closed E' e).
Proof.
  induction l as [|c l IH]; intros E W H; cbn [link_cells].
  - exists E. split; [reflexivity|]. split; [exact W|]. split; [apply grown_refl|]. intros c e [].
  - assert (S : exists E', link_cell c E = Ok E' /\ lnk C E' /\ grown E E' /\ forall e, c_incident c = Some e -> closed E' e).
    { destruct (c_incident c) as [e|] eqn:CI.
      - destruct (link_cell_ok C E c e W CI) as [E' [X1 [X2 [X3 X4]]]]; [apply (H c); [left; reflexivity|exact CI]|]. exists E'. split; [exact X1|]. split; [exact X2|]. split; [exact X3|]. intros e' Q. replace e' with e by congruence. exact X4.
      - exists E. unfold link_cell. rewrite CI. split; [reflexivity|]. split; [exact W|]. split; [apply grown_refl|discriminate]. }
    destruct S as [E1 [X1 [X2 [X3 X4]]]]. rewrite X1. cbn [obind]. destruct (IH E1 X2) as [E2 [Y1 [Y2 [Y3 Y4]]]].
    { intros d e D Q. rewrite (g_len _ _ X3). apply (H d); [right; exact D|exact Q]. }
    exists E2. split; [exact Y1|]. split; [exact Y2|]. split; [eapply grown_trans; eassumption|]. intros d e [<-|D] Q; [eapply closed_grown; [exact Y3|auto]|exact (Y4 d e D Q)].
Qed.

(* ---------- a diagram without vertices ---------- *)
Definition partner (n i : nat) : nat := if i =? 0 then 0 else if Nat.even i then i - 1 else if S i <? n then S i else i.
Definition same_but_links (E E' : list dart) : Prop :=
  length E' = length E /\ (forall i, cl E' i = cl E i) /\ (forall i, vx E' i = vx E i) /\ (forall i, tn E' i = tn E i) /\ (forall i, col E' i = col E i).
Lemma sbl_refl E : same_but_links E E.
Proof. repeat split. Qed.
Lemma sbl_next E F i v : same_but_links E F -> same_but_links E (upd i (set_next v) F).
Proof.
  intros [A1 [A2 [A3 [A4 A5]]]]. split; [rewrite length_upd; exact A1|]. split; [|split; [|split]]; intros j; [rewrite cl_set_next; apply A2|rewrite vx_set_next; apply A3|rewrite tn_set_next; apply A4|].
  rewrite <- A5. unfold col. rewrite fld_upd. destruct ((i =? j) && _); unfold fld; destruct (nth_error F j); reflexivity.
Qed.
Lemma sbl_prev E F i v : same_but_links E F -> same_but_links E (upd i (set_prev v) F).
Proof.
  intros [A1 [A2 [A3 [A4 A5]]]]. split; [rewrite length_upd; exact A1|]. split; [|split; [|split]]; intros j; [rewrite cl_set_prev; apply A2|rewrite vx_set_prev; apply A3|rewrite tn_set_prev; apply A4|].
  rewrite <- A5. unfold col. rewrite fld_upd. destruct ((i =? j) && _); unfold fld; destruct (nth_error F j); reflexivity.
Qed.
Lemma even_S_double m : Nat.even (2 * m + 1) = false.
Proof. rewrite Nat.even_add, Nat.even_mul. reflexivity. Qed.
Lemma link_lines_ok E0 : Nat.even (length E0) = true -> forall fuel m E, same_but_links E0 E -> 2 * m + 1 < length E0 -> length E0 < 2 * (m + fuel) + 1 ->
  exists E', link_lines fuel (2 * m + 1) E = Ok E' /\ same_but_links E0 E' /\ (forall j, nx E' j = if (j <? 2 * m + 1) || negb (j <? length E0) then nx E j else Some (partner (length E0) j)) /\
  (forall j, pv E' j = if (j <? 2 * m + 1) || negb (j <? length E0) then pv E j else Some (partner (length E0) j)).
Proof.
  intros EV. induction fuel as [|fuel IH]; intros m E SB L F; [lia|]. cbn [link_lines]. pose proof (proj1 SB) as LE. rewrite LE.
  assert (PO : partner (length E0) (2 * m + 1) = if S (2 * m + 1) <? length E0 then S (2 * m + 1) else 2 * m + 1).
  { unfold partner. rewrite even_S_double. destruct (Nat.eqb_spec (2 * m + 1) 0); [lia|reflexivity]. }
  destruct (Nat.eqb_spec (S (2 * m + 1)) (length E0)) as [K|K].
  - rewrite assign_ok by lia. cbn [obind]. rewrite assign_ok by (rewrite length_upd; lia).
    eexists. split; [reflexivity|]. split; [apply sbl_prev, sbl_next; exact SB|].
    assert (PO' : partner (length E0) (2 * m + 1) = 2 * m + 1) by (rewrite PO; destruct (Nat.ltb_spec (S (2 * m + 1)) (length E0)); [lia|reflexivity]).
    split; intros j; [rewrite nx_set_prev, nx_set_next by lia|rewrite pv_set_prev by (rewrite length_upd; lia); rewrite pv_set_next]; (destruct (Nat.eqb_spec (2 * m + 1) j) as [<-|N]; [rewrite PO'; destruct (Nat.ltb_spec (2 * m + 1) (2 * m + 1)); [lia|]; destruct (Nat.ltb_spec (2 * m + 1) (length E0)); [reflexivity|lia]|]);
      destruct (Nat.ltb_spec j (2 * m + 1)); cbn [orb]; try reflexivity; (destruct (Nat.ltb_spec j (length E0)); [lia|reflexivity]).
  - assert (L2 : S (2 * m + 1) < length E0) by lia. rewrite assign_ok by lia. cbn [obind]. rewrite assign_ok by (rewrite length_upd; lia). cbn [obind]. rewrite assign_ok by (rewrite !length_upd; lia). cbn [obind]. rewrite assign_ok by (rewrite !length_upd; lia). cbn [obind].
    set (F1 := upd (S (2 * m + 1)) (set_prev (Some (2 * m + 1))) _). assert (SB1 : same_but_links E0 F1) by (apply sbl_prev, sbl_next, sbl_prev, sbl_next; exact SB).
    assert (L3 : 2 * (S m) + 1 < length E0). { apply Nat.even_spec in EV. destruct EV as [q Q]. lia. }
    replace (S (S (2 * m + 1))) with (2 * S m + 1) by lia. destruct (IH (S m) F1 SB1 L3) as [E' [R [SB' [N1 N2]]]]; [lia|]. exists E'. split; [exact R|]. split; [exact SB'|].
    assert (PE : partner (length E0) (S (2 * m + 1)) = 2 * m + 1).
    { unfold partner. replace (S (2 * m + 1)) with (2 * (m + 1)) by lia. rewrite Nat.even_mul. cbn [Nat.even orb]. destruct (Nat.eqb_spec (2 * (m + 1)) 0); lia. }
    assert (PO' : partner (length E0) (2 * m + 1) = S (2 * m + 1)) by (rewrite PO; destruct (Nat.ltb_spec (S (2 * m + 1)) (length E0)); [reflexivity|lia]).
    assert (FN : forall j, nx F1 j = if 2 * m + 1 =? j then Some (S (2 * m + 1)) else if S (2 * m + 1) =? j then Some (2 * m + 1) else nx E j).
    { intros j. unfold F1. rewrite nx_set_prev, nx_set_next by (rewrite !length_upd; lia). rewrite nx_set_prev, nx_set_next by lia. destruct (Nat.eqb_spec (2 * m + 1) j), (Nat.eqb_spec (S (2 * m + 1)) j); try reflexivity; lia. }
    assert (FP : forall j, pv F1 j = if 2 * m + 1 =? j then Some (S (2 * m + 1)) else if S (2 * m + 1) =? j then Some (2 * m + 1) else pv E j).
    { intros j. unfold F1. rewrite pv_set_prev by (rewrite !length_upd; lia). rewrite pv_set_next, pv_set_prev by (rewrite !length_upd; lia). rewrite pv_set_next. destruct (Nat.eqb_spec (2 * m + 1) j), (Nat.eqb_spec (S (2 * m + 1)) j); try reflexivity; lia. }
    split; intros j; [rewrite N1, FN|rewrite N2, FP]; (destruct (Nat.ltb_spec j (2 * S m + 1)), (Nat.ltb_spec j (length E0)), (Nat.ltb_spec j (2 * m + 1)), (Nat.eqb_spec (2 * m + 1) j), (Nat.eqb_spec (S (2 * m + 1)) j); cbn [orb negb]; subst; rewrite ?PO', ?PE; try reflexivity; exfalso; lia).
Qed.
Lemma link_first_line_ok E0 : Nat.even (length E0) = true -> exists E', link_first_line E0 = Ok E' /\ same_but_links E0 E' /\
  forall j, j < length E0 -> nx E' j = Some (partner (length E0) j) /\ pv E' j = Some (partner (length E0) j).
Proof.
  intros EV. unfold link_first_line. destruct (Nat.eq_dec (length E0) 0) as [Z|Z].
  { destruct E0; [|discriminate]. exists []. split; [reflexivity|]. split; [apply sbl_refl|]. cbn [length]. lia. }
  assert (L2 : 1 < length E0) by (apply Nat.even_spec in EV; destruct EV as [q Q]; lia).
  replace (match E0 with [] => Ok E0 | _ :: _ => _ end) with (try E1 <- assign (Some 0) (set_next (Some 0)) E0; try E2 <- assign (Some 0) (set_prev (Some 0)) E1; link_lines (length E0) (2 * 0 + 1) E2) by (destruct E0; [cbn in Z; lia|reflexivity]).
  rewrite assign_ok by lia. cbn [obind]. rewrite assign_ok by (rewrite length_upd; lia). cbn [obind].
  set (F1 := upd 0 (set_prev (Some 0)) _). assert (SB : same_but_links E0 F1) by (apply sbl_prev, sbl_next, sbl_refl).
  destruct (link_lines_ok E0 EV (length E0) 0 F1 SB) as [E' [R [SB' [N1 N2]]]]; [lia|lia|]. exists E'. split; [exact R|]. split; [exact SB'|].
  intros j J. rewrite N1, N2. destruct (Nat.ltb_spec j (length E0)); [|lia]. destruct (Nat.ltb_spec j (2 * 0 + 1)) as [K|K]; cbn [orb negb]; [|split; reflexivity].
  assert (j = 0) by lia. subst j. unfold F1. rewrite nx_set_prev, nx_set_next by lia. rewrite pv_set_prev by (rewrite length_upd; lia). split; reflexivity.
Qed.
Lemma partner_lt n i : i < n -> partner n i < n.
Proof. unfold partner. intros H. destruct (Nat.eqb_spec i 0); [lia|]. destruct (Nat.even i); [lia|]. destruct (Nat.ltb_spec (S i) n); lia. Qed.
Lemma partner_inv n i : i < n -> partner n (partner n i) = i.
Proof.
  intros H. unfold partner. destruct (Nat.eqb_spec i 0) as [->|Z]; [reflexivity|]. destruct (even_or i) as [k [->| ->]].
  - rewrite !Nat.even_mul. cbn [Nat.even orb]. destruct (Nat.eqb_spec (2 * k - 1) 0); [lia|]. replace (2 * k - 1) with (2 * (k - 1) + 1) by lia. rewrite even_S_double. destruct (Nat.ltb_spec (S (2 * (k - 1) + 1)) n); lia.
  - rewrite even_S_double. destruct (Nat.ltb_spec (S (2 * k + 1)) n).
    + destruct (Nat.eqb_spec (S (2 * k + 1)) 0); [lia|]. replace (S (2 * k + 1)) with (2 * (k + 1)) by lia. rewrite Nat.even_mul. cbn [Nat.even orb]. lia.
    + destruct (Nat.eqb_spec (2 * k + 1) 0); [lia|]. rewrite even_S_double. destruct (Nat.ltb_spec (S (2 * k + 1)) n); lia.
Qed.
Lemma partner_cl E i : rows E -> i < length E -> cl E (partner (length E) i) = cl E i.
Proof.
  intros R H. unfold partner. destruct (Nat.eqb_spec i 0) as [->|Z]; [reflexivity|]. destruct (even_or i) as [k [->| ->]].
  - rewrite Nat.even_mul. cbn [Nat.even orb]. pose proof (R (k - 1)) as X. replace (2 * (k - 1) + 2) with (2 * k) in X by lia. replace (2 * (k - 1) + 1) with (2 * k - 1) in X by lia. apply X. exact H.
  - rewrite even_S_double. destruct (Nat.ltb_spec (S (2 * k + 1)) (length E)); [|reflexivity]. replace (S (2 * k + 1)) with (2 * k + 2) by lia. symmetry. apply R. lia.
Qed.

(* ---------- the final step ---------- *)
Lemma lnk_half_edges C E : lnk C E -> half_edges C E.
Proof.
  intros W. constructor.
  - intros i H. exists (tw i). pose proof (tw_lt i _ (q_even _ _ W) H) as K. repeat split; [exact (q_tn _ _ W i H)|exact K|apply tw_neq|].
    rewrite (q_tn _ _ W _ K). f_equal. apply tw_tw.
  - exact (q_cl _ _ W).
  - intros i j H. apply (q_nx _ _ W) in H. split; [eapply pv_lt; exact H|exact H].
  - intros i j H. apply (q_pv _ _ W) in H. split; [eapply nx_lt; exact H|exact H].
  - exact (q_ncl _ _ W).
  - intros i j t H T. rewrite (q_nvx _ _ W _ _ H). pose proof (nx_lt _ _ _ H) as K. rewrite (q_tn _ _ W _ K) in T. congruence.
Qed.
Lemma reach_chain f : forall l x z y, chain f x l z -> In y (x :: l) -> reach f x y.
Proof.
  induction l as [|u l IH]; intros x z y H Y; cbn [chain] in H; [destruct Y as [<-|[]]; apply reach_refl|]. destruct H as [H1 H2]. destruct Y as [<-|Y]; [apply reach_refl|].
  exact (reach_step _ _ _ _ H1 (IH u z y H2 Y)).
Qed.
Lemma reach_end f : forall l x z, chain f x l (Some z) -> reach f x z.
Proof. induction l as [|u l IH]; intros x z H; cbn [chain] in H; [exact (reach_step _ _ _ _ H (reach_refl _ _))|destruct H as [H1 H2]; exact (reach_step _ _ _ _ H1 (IH u z H2))]. Qed.
Lemma closed_loops E e : closed E e -> loops (nx E) e.
Proof.
  intros [l [H _]]. destruct l as [|u l]; cbn [chain] in H; [exists e; split; [exact H|apply reach_refl]|]. destruct H as [H1 H2]. exists u. split; [exact H1|apply (reach_end _ l); exact H2].
Qed.
Lemma rot_around C E i : lnk C E -> rot E i = around E i.
Proof.
  intros W. unfold rot, around. destruct (pv E i) as [j|] eqn:P; [|reflexivity]. cbn [option_map]. apply (q_pv _ _ W) in P. symmetry. apply (q_tn _ _ W). eapply nx_lt. exact P.
Qed.
Lemma nth_firstn {A : Type} : forall n (l : list A) i, nth_error (firstn n l) i = if i <? n then nth_error l i else None.
Proof.
  induction n as [|n IH]; intros l i; [cbn; destruct i; reflexivity|]. destruct l as [|a l]; [cbn [firstn]; replace (nth_error (@nil A) i) with (@None A) by (destruct i; reflexivity); destruct (i <? S n); reflexivity|]. destruct i as [|i]; [reflexivity|].
  cbn [firstn nth_error]. rewrite IH. reflexivity.
Qed.
Lemma build_ok g : wf (length (dg_cells g)) (length (dg_vertices g)) (dg_edges g) -> apart (dg_edges g) ->
  (forall c, In c (dg_cells g) -> c_incident c = None) -> (forall v, In v (dg_vertices g) -> v_incident v = None) ->
  exists g' o, build g = Ok g' /\ built g g' o /\ (good (dg_vertices g) (dg_edges g) -> merged g g' o).
Proof.
  intros W0 AP0 CI VI. set (V0 := dg_vertices g) in *. set (E0 := dg_edges g) in *. set (C := length (dg_cells g)) in *.
  destruct (drop_edges_ok C V0 E0 W0 AP0) as [E1 [last [R1 [W2 [AP2 [o [KE KG]]]]]]]. unfold build. fold V0 E0. rewrite R1. cbn [obind].
  set (E2 := firstn last E1) in *. clearbody E2. clear R1.
  (* incident edges *)
  assert (P0 : put set_c_incident (fun _ => None) (dg_cells g) (dg_cells g)).
  { intros c. destruct (nth_error (dg_cells g) c) as [a|] eqn:A; [|reflexivity]. cbn [option_map]. f_equal. pose proof (CI a (nth_error_In _ _ A)). destruct a. cbn in *. subst. reflexivity. }
  assert (Q0 : put set_v_incident (fun _ => None) V0 V0).
  { intros c. destruct (nth_error V0 c) as [a|] eqn:A; [|reflexivity]. cbn [option_map]. f_equal. pose proof (VI a (nth_error_In _ _ A)). destruct a. cbn in *. subst. reflexivity. }
  destruct (set_incident_ok E2 E2 0 (dg_cells g) (dg_cells g) V0 V0 (fun _ => None) (fun _ => None)) as [C' [V1 [r [s [R2 [PC [PV [IC IV]]]]]]]];
    [reflexivity|reflexivity|exact (w_cl _ _ _ W2)|exact (w_vx _ _ _ W2)|exact P0|exact Q0|intros c; split; [discriminate|lia]|intros c; split; [discriminate|lia]|].
  rewrite R2. cbn [obind]. pose proof (put_length _ _ _ _ PC) as LC. pose proof (put_length _ _ _ _ PV) as LV.
  (* vertices *)
  rewrite <- LV in W2. destruct (vert_ok C V1 E2 s) as [V2 [E3 [lv [R3 I]]]]; [exact W2|exact AP2|exact IV| |].
  { intros u a A. rewrite (PV u) in A. destruct (nth_error V0 u); [|discriminate]. cbn [option_map] in A. assert (a = set_v_incident (s u) v) by congruence. subst a. reflexivity. }
  rewrite R3. cbn [obind]. destruct I as [N1 N2 _ _ SB W3 N6 N7]. pose proof SB as [S1 S2 S3 S4 S5 S6].
  assert (LV2 : length (firstn lv V2) = lv) by (rewrite firstn_length; lia).
  assert (NOV : lv = 0 -> forall i, i < length E3 -> vx E3 i = None).
  { intros Z i H. rewrite S1 in H. destruct (vx E3 i) as [v|] eqn:Q; [|reflexivity]. exfalso. assert (X : vx E2 i = None).
    { destruct (vx E2 i) as [u|] eqn:U; [|reflexivity]. exfalso. pose proof (N6 Z u (w_vx _ _ _ W2 _ _ U)) as SN. destruct (IV u) as [_ IV2]. exact (IV2 SN i H U). }
    apply (w_null _ _ _ W2 i H) in X. rewrite <- S5 in X. rewrite <- S1 in H. apply (w_null _ _ _ W3 i H) in X. congruence. }
  (* links *)
  assert (LK : exists E4, (match firstn lv V2 with [] => link_first_line E3 | _ => link_cells C' E3 end) = Ok E4 /\ same_but_links E3 E4 /\
    (forall i v, vx E3 i = Some v -> pv E4 i = pv E3 i) /\ ((lv = 0 -> rows E4) -> lnk C E4) /\
    (lv <> 0 -> forall c a i, nth_error C' c = Some a -> c_incident a = Some i -> loops (nx E4) i) /\
    (lv = 0 -> forall i, i < length E4 -> vx E4 i = None /\ nx E4 i <> None /\ pv E4 i <> None)).
  { destruct (Nat.eq_dec lv 0) as [Z|Z].
    - replace (firstn lv V2) with (@nil vvertex) by (rewrite Z; reflexivity). destruct (link_first_line_ok E3 (w_even _ _ _ W3)) as [E4 [R [SL LN]]]. exists E4. split; [exact R|]. split; [exact SL|].
      destruct SL as [L1 [L2 [L3 [L4 L5]]]]. split; [intros i v H; rewrite (NOV Z i (vx_lt _ _ _ H)) in H; discriminate|]. split; [|split; [congruence|]].
      + intros RW. specialize (RW Z). assert (LN' : forall i j, nx E4 i = Some j -> i < length E3 /\ j = partner (length E3) i).
        { intros i j H. pose proof (nx_lt _ _ _ H) as IL. rewrite L1 in IL. destruct (LN i IL) as [A _]. split; [exact IL|congruence]. }
        assert (LP' : forall i j, pv E4 i = Some j -> i < length E3 /\ j = partner (length E3) i).
        { intros i j H. pose proof (pv_lt _ _ _ H) as IL. rewrite L1 in IL. destruct (LN i IL) as [_ A]. split; [exact IL|congruence]. }
        constructor.
        * rewrite L1. exact (w_even _ _ _ W3).
        * intros i H. rewrite L4. apply (w_tn _ _ _ W3). lia.
        * intros i H. rewrite L2. apply (w_cl _ _ _ W3). lia.
        * intros i j H. apply LN' in H. destruct H as [H ->]. destruct (LN _ (partner_lt _ _ H)) as [_ A]. rewrite A, partner_inv by exact H. reflexivity.
        * intros i j H. apply LP' in H. destruct H as [H ->]. destruct (LN _ (partner_lt _ _ H)) as [A _]. rewrite A, partner_inv by exact H. reflexivity.
        * intros i H _. rewrite L3. apply (NOV Z). lia.
        * intros i H _. rewrite L3. apply (NOV Z). apply tw_lt; [exact (w_even _ _ _ W3)|lia].
        * intros i j H. apply LN' in H. destruct H as [H ->]. rewrite <- L1. apply partner_cl; [exact RW|lia].
        * intros i j H. apply LN' in H. destruct H as [H ->]. rewrite !L3, !(NOV Z); [reflexivity|apply tw_lt; [exact (w_even _ _ _ W3)|exact H]|apply partner_lt; exact H].
      + intros _ i H. rewrite L1 in H. rewrite L3, (NOV Z i H). destruct (LN i H) as [A B]. rewrite A, B. repeat split; discriminate.
    - destruct (firstn lv V2) as [|v0 V3] eqn:FV; [cbn in LV2; lia|]. rewrite <- FV in *. clear v0 V3 FV.
      destruct (link_cells_ok C C' E3 (wf_lnk _ _ _ W3)) as [E4 [R [L4 [G CLO]]]].
      { intros c e IN H. apply In_nth_error in IN. destruct IN as [k K]. rewrite (PC k) in K. destruct (nth_error (dg_cells g) k) as [a|]; [|discriminate]. cbn [option_map] in K. assert (c = set_c_incident (r k) a) by congruence. subst c. cbn in H.
        destruct (IC k) as [IC1 _]. destruct (IC1 e H) as [X _]. lia. }
      exists E4. split; [exact R|]. split; [destruct G as [G1 G2 G3 G4 G5 G6 G7]; repeat split; assumption|]. split; [|split; [|split; [|congruence]]].
      + intros i v H. destruct (pv E3 i) as [j|] eqn:P; [exact (g_pv _ _ G _ _ P)|]. exfalso. apply (w_null _ _ _ W3 i (vx_lt _ _ _ H)) in P. congruence.
      + intros _. exact L4.
      + intros _ c a i NC IN. apply closed_loops. apply (CLO a); [eapply nth_error_In; exact NC|exact IN]. }
  destruct LK as [E4 [R4 [SL [PVK [LK [CLO LIN]]]]]]. rewrite R4. cbn [obind]. destruct SL as [L1 [L2 [L3 [L4 L5]]]].
  assert (VN : firstn lv V2 = [] <-> lv = 0). { split; [intros H; rewrite H in LV2; cbn in LV2; congruence|intros ->; reflexivity]. }
  eexists. exists o. split; [reflexivity|]. split; [|intros G].
  - constructor; cbn [dg_cap dg_cells dg_vertices dg_edges].
    + reflexivity.
    + intros i H. apply (k_lt _ _ _ _ KE). lia.
    + intros i j IJ J. apply (k_mono _ _ _ _ KE); lia.
    + intros i IL. assert (IL3 : i < length E3) by lia. exists (tw i). split; [rewrite L4; exact (w_tn _ _ _ W3 _ IL3)|]. split; [rewrite L1; apply tw_lt; [exact (w_even _ _ _ W3)|exact IL3]|]. fold E0.
      rewrite (k_tw _ _ _ _ KE) by lia. apply (w_tn _ _ _ W0). apply (k_lt _ _ _ _ KE). lia.
    + intros i H. rewrite L2, S2. apply (k_cl _ _ _ _ KE). lia.
    + intros i H. change (col E4 i = col E0 (o i)). rewrite L5, S6. apply (k_col _ _ _ _ KE). lia.
    + exact LC.
    + intros c a A. exists (set_c_incident (r c) a). split; [rewrite (PC c), A; reflexivity|]. split; [reflexivity|]. split; [reflexivity|]. cbn. destruct (IC c) as [IC1 IC2].
      destruct (r c) as [i|]; [rewrite L2, S2; apply (IC1 i); reflexivity|]. intros i H. apply (IC2 eq_refl i); [pose proof (cl_lt _ _ _ H); lia|]. rewrite <- S2, <- L2. exact H.
    + intros RW. rewrite LC. apply lnk_half_edges, LK. intros Z. apply RW, VN, Z.
    + intros NV. apply CLO. intros Z. apply NV, VN, Z.
    + intros Z. apply LIN, VN, Z.
  - destruct (KG G) as [lab KV]. destruct (N7 (kv_single _ _ _ _ _ KV)) as [ren [Q1 [Q2 [Q3 Q4]]]].
    assert (VX : forall i, vx E4 i = option_map ren (vx E2 i)).
    { intros i. rewrite L3, Q1. destruct (vx E2 i) as [u|] eqn:U; [|reflexivity]. cbn [option_map]. pose proof (w_vx _ _ _ W2 _ _ U). destruct (Nat.ltb_spec u (length V1)); [reflexivity|lia]. }
    assert (SU : forall i u, vx E2 i = Some u -> u < length V1 /\ s u <> None).
    { intros i u U. split; [exact (w_vx _ _ _ W2 _ _ U)|]. intros K. destruct (IV u) as [_ IV2]. exact (IV2 K i (vx_lt _ _ _ U) U). }
    assert (INJ : forall u w, u < length V1 -> w < length V1 -> s u <> None -> s w <> None -> ren u = ren w -> u = w).
    { intros u w U X SU1 SW1 K. destruct (Nat.lt_trichotomy u w) as [T|[T|T]]; [pose proof (Q4 u w T X SU1 SW1); lia|exact T|pose proof (Q4 w u T U SW1 SU1); lia]. }
    assert (AT : forall u, u < length V1 -> s u <> None -> ren u < lv /\ exists a, nth_error V0 u = Some a /\ nth_error (firstn lv V2) (ren u) = Some (set_v_incident (s u) a)).
    { intros u U SU1. destruct (Q2 u U SU1) as [X1 X2]. split; [exact X1|]. rewrite LV in U. destruct (nth_some u V0 U) as [a A]. exists a. split; [exact A|].
      rewrite nth_firstn. destruct (Nat.ltb_spec (ren u) lv); [|lia]. rewrite X2, (PV u), A. reflexivity. }
    constructor; cbn [dg_cap dg_cells dg_vertices dg_edges]; fold V0 E0.
    + intros i v H. rewrite VX in H. destruct (vx E2 i) as [u|] eqn:U; [|discriminate]. cbn [option_map] in H. destruct (SU i u U) as [X1 X2]. destruct (AT u X1 X2) as [Y _]. rewrite LV2. congruence.
    + intros k K. rewrite <- (kv_all _ _ _ _ _ KV k K). replace (length E4) with (length E2) by lia. reflexivity.
    + intros i H. assert (H2 : i < length E2) by lia. rewrite VX. pose proof (kv_vx _ _ _ _ _ KV i H2) as KX. destruct (vx E2 i) as [u'|] eqn:U; destruct (vx E0 (o i)) as [u|] eqn:U0; cbn [option_map] in *; try discriminate; [|exact Logic.I].
      assert (u' = lab u) by congruence. subst u'. destruct (SU i _ U) as [X1 X2]. destruct (AT _ X1 X2) as [_ [a [Y1 Y2]]].
      destruct (nth_some u V0 (w_vx _ _ _ W0 _ _ U0)) as [a0 A0]. destruct (kv_same _ _ _ _ _ KV u a0 A0) as [b [B1 B2]]. assert (b = a) by congruence. subst b.
      exists a0, (set_v_incident (s (lab u)) a). split; [exact A0|]. split; [exact Y2|]. exact B2.
    + intros i j u w v v' HI HJ U W VI1 VJ1. assert (H2 : i < length E2) by lia. assert (J2 : j < length E2) by lia. rewrite VX in VI1, VJ1.
      pose proof (kv_vx _ _ _ _ _ KV i H2) as KX. pose proof (kv_vx _ _ _ _ _ KV j J2) as KY. rewrite U in KX. rewrite W in KY. cbn [option_map] in KX, KY.
      destruct (SU i _ KX) as [X1 X2]. destruct (SU j _ KY) as [Y1 Y2]. rewrite KX in VI1. rewrite KY in VJ1. cbn [option_map] in VI1, VJ1. rewrite <- (kv_join _ _ _ _ _ KV).
      split; [intros ->; apply INJ; try assumption; congruence|congruence].
    + intros v b NV. assert (VL : v < lv) by (rewrite <- LV2; apply nth_error_Some; congruence). destruct (Q3 v VL) as [u [U1 [U2 U3]]]. destruct (AT u U1 U2) as [_ [a [A1 A2]]]. rewrite U3, NV in A2.
      assert (b = set_v_incident (s u) a) by congruence. subst b. split; [exists u, a; repeat split; exact A1|]. destruct (s u) as [i|] eqn:SI; [|congruence]. exists i. split; [reflexivity|].
      destruct (IV u) as [IV1 _]. destruct (IV1 i SI) as [_ X]. rewrite VX, X. cbn [option_map]. congruence.
    + intros i j v HI HJ. assert (NZ : lv <> 0). { intros Z. rewrite L3, (NOV Z i) in HI; [discriminate|pose proof (vx_lt _ _ _ HI); lia]. }
      assert (W4 : lnk C E4) by (apply LK; intros Z; congruence).
      pose proof HI as HI2. pose proof HJ as HJ2. rewrite VX in HI2, HJ2. destruct (vx E2 i) as [u|] eqn:U; [|discriminate]. destruct (vx E2 j) as [w|] eqn:W; [|discriminate]. cbn [option_map] in HI2, HJ2.
      destruct (SU i _ U) as [X1 X2]. destruct (SU j _ W) as [Y1 Y2]. assert (w = u) by (apply INJ; try assumption; congruence). subst w.
      assert (IL : (i <? length E2) = true) by (apply Nat.ltb_lt; eapply vx_lt; exact U). assert (JL : (j <? length E2) = true) by (apply Nat.ltb_lt; eapply vx_lt; exact W).
      destruct (kv_single _ _ _ _ _ KV i u IL U) as [l [CH [_ [_ ALL]]]]. apply (reach_chain _ l i (Some i)); [|exact (ALL j JL W)].
      apply (chain_ext (rot E2)); [|exact CH]. intros y Y.
      assert (VY : vx E2 y = Some u).
      { refine (proj1 (chain_closed (rot E2) (fun y => vx E2 y = Some u /\ (y <? length E2) = true) l i _ CH (conj U IL) _ y Y)). intros a b [A1 A2] AB. destruct (rot_step _ _ _ _ (wf_wfl _ _ _ W2 AP2) a b A2 AB) as [B1 [_ [B3 _]]]. split; [congruence|exact B1]. }
      rewrite <- (rot_around C E4 y W4). unfold rot. rewrite <- (S5 y). assert (Q : vx E3 y = Some (ren u)) by (rewrite <- L3, VX, VY; reflexivity). rewrite (PVK y _ Q). reflexivity.
Qed.
