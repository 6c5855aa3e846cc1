(* form_rectangles writes the rectangles in the order of their trailing edges. *)
From Verif Require Import Base Scan90Spec Set90Spec Set90Model RectFormSpec RectFormModel.

(* b was written after a *)
Definition after (b a : srect) : Prop :=
  s_mh a < s_mh b \/ (s_mh a = s_mh b /\ (s_lo a <= s_lo b \/ s_lo a <= s_hi b)).

Lemma sr_less_lo a b : sr_less a b = true -> s_lo a <= s_lo b.
Proof. unfold sr_less. destruct (Z.gtb_spec (s_lo a) (s_lo b)); [discriminate|lia]. Qed.
Lemma set_next_lo r S q : set_next r S = Some q -> s_lo r <= s_lo q.
Proof. unfold set_next. intros E. apply find_some in E. apply sr_less_lo, E. Qed.

Definition edge_new (el eh cc : Z) (bound : Z -> Prop) (new : list srect) : Prop :=
  Forall (fun s => s_mh s = cc /\ s_lo s <= eh /\ el <= s_hi s /\ bound (s_lo s)) new /\
  ForallOrdPairs (fun b a => s_lo a <= s_lo b) new.
Lemma edge_new_nil el eh cc bound : edge_new el eh cc bound [].
Proof. split; constructor. Qed.
Lemma write_out_new el eh cc r out : s_lo r <= eh -> el <= s_hi r ->
  exists new, write_out cc r out = new ++ out /\ edge_new el eh cc (fun l => s_lo r <= l) new /\
    Forall (fun s => s_lo s = s_lo r) new.
Proof.
  intros H1 H2. unfold write_out. destruct (s_ml r <? cc).
  - exists [mk_sr (s_lo r) (s_hi r) (s_ml r) cc]. split; [reflexivity|]. split; [|constructor; [reflexivity|constructor]].
    split; [|constructor; constructor]. constructor; [cbn [s_mh s_lo s_hi]; lia|constructor].
  - exists []. split; [reflexivity|]. split; [apply edge_new_nil|constructor].
Qed.
Lemma edge_new_weaken el eh cc (b1 b2 : Z -> Prop) new : (forall l, b1 l -> b2 l) -> edge_new el eh cc b1 new -> edge_new el eh cc b2 new.
Proof.
  intros H [F O]. split; [|exact O]. eapply Forall_impl; [|exact F]. cbn beta. intros s [A [B [C D]]]. auto.
Qed.
Lemma ordpairs_app_intro {A} (R : A -> A -> Prop) l1 l2 : ForallOrdPairs R l1 -> ForallOrdPairs R l2 ->
  (forall a b, In a l1 -> In b l2 -> R a b) -> ForallOrdPairs R (l1 ++ l2).
Proof.
  intros H1 H2. induction H1 as [|a l F H IH]; intros C; [exact H2|]. cbn [app]. constructor.
  - apply Forall_app. split; [exact F|]. apply Forall_forall. intros b Hb. apply C; [left; reflexivity|exact Hb].
  - apply IH. intros x b Hx. apply C. right; exact Hx.
Qed.
Lemma edge_new_app el eh cc r n1 n2 : edge_new el eh cc (fun l => s_lo r <= l) n1 ->
  Forall (fun s => s_lo s = s_lo r) n2 -> edge_new el eh cc (fun l => s_lo r <= l) n2 ->
  edge_new el eh cc (fun l => s_lo r <= l) (n1 ++ n2).
Proof.
  intros [F1 O1] E2 [F2 O2]. split; [apply Forall_app; split; assumption|].
  apply ordpairs_app_intro; [exact O1|exact O2|]. intros b a Hb Ha. rewrite Forall_forall in F1, E2.
  rewrite (E2 a Ha). apply (F1 b Hb).
Qed.

Lemma edge_loop_out : forall fuel el eh st it ep st' ep', edge_loop fuel el eh st it ep = Some (st', ep') ->
  sc_cc st' = sc_cc st /\ exists new, sc_out st' = new ++ sc_out st /\
    edge_new el eh (sc_cc st) (fun l => forall r, it = Some r -> s_lo r <= l) new.
Proof.
  induction fuel as [|fuel IH]; intros el eh st it ep st' ep' E.
  - cbn [edge_loop] in E. destruct it as [r|]; [destruct (s_lo r <=? eh)|]; try discriminate E;
      (assert (st' = st) by congruence; subst st'; split; [reflexivity|]; exists []; split; [reflexivity|apply edge_new_nil]).
  - cbn [edge_loop] in E. destruct it as [r|];
      [|assert (st' = st) by congruence; subst st'; split; [reflexivity|]; exists []; split; [reflexivity|apply edge_new_nil]].
    destruct (Z.leb_spec (s_lo r) eh) as [L1|L1];
      [|assert (st' = st) by congruence; subst st'; split; [reflexivity|]; exists []; split; [reflexivity|apply edge_new_nil]].
    destruct st as [data have cur cc out]. cbn [sc_cc sc_out] in *.
    destruct (Z.geb_spec (s_hi r) el) as [L2|L2].
    + destruct (write_out_new el eh cc r out L1 L2) as [n0 [E0 [N0 K0]]].
      destruct (contains_edge r el eh).
      * destruct (set_erase r data) as [d1|]; [|discriminate E]. cbn [bind] in E.
        assert (Q : st' = mk_scan (sc_data st') have cur cc (write_out cc r out)).
        { destruct (s_lo r <? el), (s_hi r >? eh); injection E as <- _; reflexivity. }
        rewrite Q. cbn [sc_cc sc_out]. split; [reflexivity|]. exists n0. split; [exact E0|].
        eapply edge_new_weaken; [|exact N0]. cbn beta. intros l Hl q Eq. assert (q = r) by congruence. subst q. exact Hl.
      * destruct (set_erase r data) as [d1|]; [|discriminate E]. cbn [bind] in E.
        match type of E with (match ?t with pair _ _ => _ end) = _ => destruct t as [[d2 h2] c2] end.
        destruct (IH _ _ _ _ _ _ _ E) as [C1 [n1 [E1 N1]]]. cbn [sc_cc sc_out] in *. split; [exact C1|].
        exists (n1 ++ n0). rewrite E1, E0, app_assoc. split; [reflexivity|].
        assert (W : edge_new el eh cc (fun l => s_lo r <= l) (n1 ++ n0)).
        { apply edge_new_app; [|exact K0|exact N0].
          destruct (set_next r data) as [q|] eqn:EQ.
          - eapply edge_new_weaken; [|exact N1]. cbn beta. intros l Hl. specialize (Hl q eq_refl).
            pose proof (set_next_lo r data q EQ). lia.
          - destruct fuel; cbn [edge_loop] in E; injection E as <- _; cbn [sc_out] in E1;
              (assert (n1 = []) by (destruct n1 as [|z n1]; [reflexivity|apply (f_equal (@length _)) in E1; rewrite app_length in E1; cbn [length] in E1; lia]); subst n1; apply edge_new_nil). }
        eapply edge_new_weaken; [|exact W]. cbn beta. intros l Hl q Eq. assert (q = r) by congruence. subst q. exact Hl.
    + destruct (IH _ _ _ _ _ _ _ E) as [C1 [n1 [E1 N1]]]. cbn [sc_cc sc_out] in *. split; [exact C1|].
      exists n1. split; [exact E1|]. destruct (set_next r data) as [q|] eqn:EQ.
      * eapply edge_new_weaken; [|exact N1]. cbn beta. intros l Hl q' Eq. assert (q' = r) by congruence. subst q'.
        specialize (Hl q eq_refl). pose proof (set_next_lo r data q EQ). lia.
      * destruct fuel; cbn [edge_loop] in E; injection E as <- _; cbn [sc_out] in E1;
          (assert (n1 = []) by (destruct n1 as [|z n1]; [reflexivity|apply (f_equal (@length _)) in E1; rewrite app_length in E1; cbn [length] in E1; lia]); subst n1; apply edge_new_nil).
Qed.

Lemma edge_rest_out el eh st : sc_cc (edge_rest el eh st) = sc_cc st /\ sc_out (edge_rest el eh st) = sc_out st.
Proof.
  destruct st as [data have cur cc out]. unfold edge_rest. destruct have; [|split; reflexivity].
  destruct ((s_mh cur =? cc) && (s_hi cur >=? el)); [|split; reflexivity].
  destruct (s_hi cur >? el); [|split; reflexivity]. destruct (s_hi cur >? eh); split; reflexivity.
Qed.
Lemma processEdge_out el eh st st' : processEdge el eh st = Some st' ->
  sc_cc st' = sc_cc st /\ exists new, sc_out st' = new ++ sc_out st /\ edge_new el eh (sc_cc st) (fun _ => True) new.
Proof.
  unfold processEdge. intros E.
  assert (G : exists st1 ep, st' = (if ep : bool then st1 else edge_rest el eh st1) /\ sc_cc st1 = sc_cc st /\
    exists new, sc_out st1 = new ++ sc_out st /\ edge_new el eh (sc_cc st) (fun _ => True) new).
  { destruct (sc_data st) as [|s data] eqn:ED.
    - cbn [bind] in E. injection E as <-. exists st, false. split; [reflexivity|]. split; [reflexivity|].
      exists []. split; [reflexivity|apply edge_new_nil].
    - rewrite <- ED in E. destruct (back_up _ _ _ _) as [it|]; [|discriminate E]. cbn [bind] in E.
      destruct (edge_loop _ _ _ _ _ _) as [[st1 ep]|] eqn:EL; [|discriminate E]. cbn [bind] in E. injection E as <-.
      exists st1, ep. split; [reflexivity|]. destruct (edge_loop_out _ _ _ _ _ _ _ _ EL) as [C [new [E1 N]]].
      split; [exact C|]. exists new. split; [exact E1|]. eapply edge_new_weaken; [|exact N]. trivial. }
  destruct G as [st1 [ep [-> [C [new [E1 N]]]]]].
  assert (Q : sc_cc (if ep then st1 else edge_rest el eh st1) = sc_cc st1 /\ sc_out (if ep then st1 else edge_rest el eh st1) = sc_out st1).
  { destruct ep; [split; reflexivity|apply edge_rest_out]. }
  destruct Q as [Q1 Q2]. rewrite Q1, Q2. split; [exact C|]. exists new. split; assumption.
Qed.

(* what has been written so far, V is still to come *)
Record ordered (V : list vertex) (st : scan) : Prop := {
  od_pairs : ForallOrdPairs after (sc_out st);
  od_cc : forall a, In a (sc_out st) -> s_mh a <= sc_cc st /\
    forall v, In v V -> sc_cc st <= vx v /\ (vx v = sc_cc st -> s_mh a = sc_cc st -> s_lo a <= vy v) }.

Lemma form_loop_ordered : forall n V st prev st', (length V <= n)%nat -> StronglySorted pos_le V -> prev = sc_cc st ->
  ordered V st -> form_loop st prev V = Some st' -> ForallOrdPairs after (sc_out st').
Proof.
  induction n as [|n IH]; intros V st prev st' Ln S Ep O E.
  - destruct V; [|cbn [length] in Ln; lia]. cbn [form_loop] in E. injection E as <-. apply O.
  - destruct V as [|v V1]; [cbn [form_loop] in E; injection E as <-; apply O|].
    destruct V1 as [|w V2]; [discriminate E|]. cbn [form_loop] in E.
    set (st1 := if vx v =? prev then st else nextMajorCoordinate (vx v) st) in *.
    assert (O1 : ordered (v :: w :: V2) st1 /\ sc_cc st1 = vx v).
    { unfold st1. destruct (Z.eqb_spec (vx v) prev) as [Q|Q]; [split; [exact O|congruence]|].
      destruct st as [data have cur cc out]. cbn [nextMajorCoordinate sc_cc sc_out] in *. split; [|reflexivity].
      destruct O as [P1 P2]. cbn [sc_cc sc_out] in *. constructor; cbn [sc_cc sc_out]; [exact P1|].
      intros a Ha. destruct (P2 a Ha) as [A1 A2]. destruct (A2 v (or_introl eq_refl)) as [A3 _].
      split; [lia|]. intros u Hu. split; [|intros _ K; lia].
      inversion S as [|? ? _ F]; subst. destruct Hu as [<-|Hu]; [lia|]. rewrite Forall_forall in F. specialize (F u Hu).
      unfold pos_le in F. lia. }
    destruct O1 as [O1 C1]. clearbody st1.
    destruct (processEdge (vy v) (vy w) st1) as [st2|] eqn:E2; [|discriminate E]. cbn [bind] in E.
    destruct (processEdge_out _ _ _ _ E2) as [C2 [new [En [F Or]]]].
    assert (O2 : ordered (w :: V2) st2).
    { destruct O1 as [P1 P2]. constructor; rewrite En.
      - apply ordpairs_app_intro.
        + clear -F Or. induction Or as [|a l G Or IH]; constructor; [|apply IH; inversion F; assumption].
          inversion F as [|? ? [Fa _] Fl]; subst. rewrite Forall_forall in *. intros b Hb. specialize (G b Hb). destruct (Fl b Hb) as [Fb _].
          right. split; [congruence|left; exact G].
        + exact P1.
        + intros b a Hb Ha. rewrite Forall_forall in F. destruct (F b Hb) as [B1 [B2 [B3 _]]].
          destruct (P2 a Ha) as [A1 A2]. destruct (A2 v (or_introl eq_refl)) as [_ A3]. unfold after. rewrite C1 in *.
          destruct (Z_lt_ge_dec (s_mh a) (vx v)) as [L|L]; [left; lia|]. right. split; [lia|]. right.
          specialize (A3 eq_refl ltac:(lia)). lia.
      - rewrite C2, C1. rewrite C1 in P2. inversion S as [|? ? S1 Fv]; subst. inversion S1 as [|? ? S2 Fw]; subst.
        rewrite Forall_forall in Fv, Fw. intros a Ha. apply in_app_or in Ha.
        assert (Hw : pos_le v w) by (apply Fv; left; reflexivity).
        assert (Hl : s_mh a <= vx v /\ (s_mh a = vx v -> s_lo a <= vy w \/ vx v < vx w)).
        { destruct Ha as [Ha|Ha].
          - rewrite Forall_forall in F. destruct (F a Ha) as [B1 [B2 _]]. rewrite C1 in B1. split; [lia|]. intros _. left; exact B2.
          - destruct (P2 a Ha) as [A1 A2]. split; [exact A1|]. intros K. destruct (A2 v (or_introl eq_refl)) as [_ A3].
            specialize (A3 eq_refl K). unfold pos_le in Hw. lia. }
        destruct Hl as [H1 H2]. split; [exact H1|]. intros u Hu.
        assert (Pu : pos_le v u /\ pos_le w u).
        { split; [apply Fv; exact Hu|]. destruct Hu as [<-|Hu]; [unfold pos_le; lia|apply Fw; exact Hu]. }
        unfold pos_le in *. split; [lia|]. intros K1 K2. specialize (H2 K2). lia. }
    assert (Ec : vx v = sc_cc st2) by congruence.
    assert (S1 : StronglySorted pos_le (w :: V2)) by (inversion S; assumption).
    destruct (Z.abs (vc w) >? 1).
    + apply (IH (w :: V2) st2 (vx v) st'); try assumption. cbn [length] in *. lia.
    + apply (IH V2 st2 (vx v) st'); try assumption; [cbn [length] in *; lia|inversion S1; assumption|].
      destruct O2 as [Q1 Q2]. constructor; [exact Q1|]. intros a Ha. destruct (Q2 a Ha) as [R1 R2]. split; [exact R1|].
      intros u Hu. apply R2. right; exact Hu.
Qed.

Lemma canonical_pos_le V : canonical V -> StronglySorted pos_le V.
Proof.
  intros [_ S]. induction S as [|v l S IH F]; constructor; [exact IH|]. eapply Forall_impl; [|exact F].
  intros w H. unfold canon_le, pos_lt, pos_le in *. lia.
Qed.
Lemma scan_ordered V st : canonical V -> form_loop scan_start INT_MAX V = Some st -> ForallOrdPairs after (sc_out st).
Proof.
  intros C E. apply (form_loop_ordered (length V) V scan_start INT_MAX st (Nat.le_refl _) (canonical_pos_le V C) eq_refl); [|exact E].
  constructor; [constructor|intros a []].
Qed.
