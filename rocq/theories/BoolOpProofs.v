(* applyBooleanOr and applyBooleanBinaryOp compute the pointwise operation in
   canonical form. *)
From Verif Require Import Base Scan90Spec BoolOpModel ScanMap ScanProcess ScanStep VertexLemmas ScanLoop.

Lemma int_laws : count_laws int_ops.
Proof.
  constructor; cbn [int_ops t_add t_null t_eqb t_int]; intros; try lia.
Qed.
Lemma unary_laws : count_laws unary_ops.
Proof.
  constructor; cbn [unary_ops t_add t_null t_eqb t_int]; intros; try lia.
  rewrite Z.rem_0_l; lia.
Qed.
Lemma binary_laws f : f 0 0 = false -> count_laws (binary_ops f).
Proof.
  intros Hf. constructor; cbn [binary_ops t_add t_null t_eqb t_int fst snd].
  - intros a b. f_equal; lia.
  - intros a b c. f_equal; lia.
  - intros [a b]. cbn [fst snd]. f_equal; lia.
  - intros [a b] [c d]. cbn [fst snd]. rewrite andb_true_iff, !Z.eqb_eq. split.
    + intros [H1 H2]. congruence.
    + intros H. injection H as H1 H2. split; assumption.
  - rewrite Hf. cbn [b2z]. lia.
Qed.

(* sum of the counts of the vertices whose position satisfies p *)
Fixpoint vsum (p : Z -> Z -> bool) (V : list vertex) : Z :=
  match V with
  | [] => 0
  | v :: V' => (if p (vx v) (vy v) then vc v else 0) + vsum p V'
  end.
Lemma cnt_vsum V x y : cnt V x y = vsum (fun a b => (a <=? x) && (b <=? y)) V.
Proof. induction V as [|v V IH]; cbn [cnt vsum]; [reflexivity|]. rewrite IH. reflexivity. Qed.
Lemma col_total_vsum V x : col_total V x = vsum (fun a _ => a =? x) V.
Proof. induction V as [|v V IH]; cbn [col_total vsum]; [reflexivity|]. rewrite IH. reflexivity. Qed.

(* ---------- applyBooleanOr ---------- *)
Section Or.
Context (ops : count_ops Z) (L : count_laws ops) (UnitMax : Z).
Context (Hnull : t_null ops = 0) (Hadd : t_add ops = Z.add).

Definition vev (v : vertex) : tev := (vx v, vy v, vc v).

Definition or2gs (s : or_state) : gs :=
  mk_gs (or_prevPos s) (or_prevY s) (or_count s) (or_bo s) (or_rout s).

Lemma or_step_gen s v :
  option_map or2gs (or_step ops (fun c => c) s v) = gen_step ops (or2gs s) (vev v).
Proof.
  unfold or_step, gen_step, or2gs, vev, ex, ey, ec. cbn [fst snd g_x g_y g_c g_bo g_rout].
  rewrite (Z.eqb_sym (vx v)).
  destruct (or_prevPos s =? vx v); cbn [negb]; [|reflexivity].
  assert (Hz : (or_count s =? 0) = t_eqb ops (or_count s) (t_null ops)).
  { rewrite Hnull. destruct (t_eqb ops (or_count s) 0) eqn:E.
    - apply (cl_eqb ops L) in E. rewrite E. reflexivity.
    - destruct (Z.eqb_spec (or_count s) 0) as [E'|E']; [|reflexivity].
      assert (t_eqb ops (or_count s) 0 = true) by (apply (cl_eqb ops L); exact E'). congruence. }
  rewrite Hz, Hadd.
  destruct (negb (vy v =? or_prevY s) && negb (t_eqb ops (or_count s) (t_null ops))).
  - destruct (processInterval ops (or_bo s) (or_prevY s) (vy v) (or_count s)) as [[bo c]|]; reflexivity.
  - reflexivity.
Qed.

Lemma or_loop_gen V : forall s,
  option_map or2gs (or_loop ops (fun c => c) s V) = gen_loop ops (or2gs s) (map vev V).
Proof.
  induction V as [|v V IH]; intros s; cbn [or_loop map gen_loop]; [reflexivity|].
  rewrite <- (or_step_gen s v). destruct (or_step ops (fun c => c) s v) as [s'|]; cbn [bind option_map]; [|reflexivity].
  apply IH.
Qed.

Lemma or_first v : or2gs (or_init UnitMax) = or2gs (or_init UnitMax) ->
  gen_step ops (or2gs (or_init UnitMax)) (vev v) = Some (mk_gs (vx v) (vy v) (vc v) bo_init []).
Proof.
  intros _. unfold gen_step, or2gs, or_init, vev, ex, ey, ec.
  cbn [fst snd g_x g_y g_c g_bo g_rout or_prevPos or_prevY or_count or_bo or_rout].
  destruct (Z.eqb_spec UnitMax (vx v)) as [E|E]; cbn [negb]; [|reflexivity].
  assert (Hz : t_eqb ops 0 (t_null ops) = true) by (apply (cl_eqb ops L); symmetry; exact Hnull).
  rewrite Hz. cbn [negb]. rewrite andb_false_r. cbn [bind]. rewrite Hadd, Z.add_0_l, E. reflexivity.
Qed.

Lemma tsum_vev p V : tsum ops p (map vev V) = vsum p V.
Proof.
  induction V as [|v V IH]; cbn [map tsum vsum]; [exact Hnull|].
  rewrite IH, Hadd. unfold vev, ex, ey, ec. cbn [fst snd]. rewrite Hnull. reflexivity.
Qed.

Theorem applyBooleanOr_gen_spec V :
  StronglySorted pos_le V -> cols_closed V ->
  exists out, applyBooleanOr_gen ops (fun c => c) UnitMax V = Some out /\ canonical out /\
    forall x y, cnt out x y = b2z (t_int ops (cnt V x y) >? 0).
Proof.
  intros Hs Hc. unfold applyBooleanOr_gen. destruct V as [|v V].
  - exists []. cbn [or_loop bind or_init or_rout rev]. split; [reflexivity|].
    split; [split; constructor|]. intros x y. cbn [cnt].
    pose proof (cl_int_null ops L) as Hn. rewrite Hnull in Hn.
    destruct (Z.gtb_spec (t_int ops 0) 0); [lia|reflexivity].
  - assert (Hs' : StronglySorted ev_le (map vev (v :: V))).
    { clear Hc. induction Hs as [|w W Hs IH Hf]; cbn [map]; constructor; [exact IH|].
      apply Forall_map. eapply Forall_impl; [|exact Hf]. intros u Hu. exact Hu. }
    assert (Hc' : tcols_closed ops (map vev (v :: V))).
    { intros x. rewrite tsum_vev, <- col_total_vsum, Hnull. apply Hc. }
    destruct (gen_scan ops L (vev v) (map vev V) Hs' Hc') as [s' [P1 [P2 P3]]].
    pose proof (or_loop_gen (v :: V) (or_init UnitMax)) as Hl.
    cbn [map gen_loop] in Hl. rewrite (or_first v eq_refl) in Hl. cbn [bind] in Hl.
    change (mk_gs (vx v) (vy v) (vc v) bo_init []) with (mk_gs (ex (vev v)) (ey (vev v)) (ec (vev v)) bo_init []) in Hl.
    rewrite P1 in Hl.
    destruct (or_loop ops (fun c => c) (or_init UnitMax) (v :: V)) as [s|]; cbn [option_map] in Hl; [|discriminate Hl].
    injection Hl as Hl. cbn [bind]. exists (rev (or_rout s)). split; [reflexivity|].
    subst s'. cbn [or2gs g_rout] in *. split; [exact P2|].
    intros x y. rewrite P3. unfold ind, tcnt. change (vev v :: map vev V) with (map vev (v :: V)).
    rewrite tsum_vev, <- cnt_vsum. reflexivity.
Qed.
End Or.

Theorem applyBooleanOr_spec UnitMax V :
  StronglySorted pos_le V -> cols_closed V ->
  exists out, applyBooleanOr UnitMax V = Some out /\ canonical out /\
    forall x y, cnt out x y = b2z (cnt V x y >? 0).
Proof. intros Hs Hc. exact (applyBooleanOr_gen_spec int_ops int_laws UnitMax eq_refl eq_refl V Hs Hc). Qed.

Lemma rem2_pos c : (Z.rem c 2 >? 0) = (c >? 0) && Z.odd c.
Proof.
  destruct (Z.gtb_spec c 0) as [H|H]; cbn [andb].
  - rewrite Z.rem_mod_nonneg by lia. rewrite Zmod_odd. destruct (Z.odd c); reflexivity.
  - destruct (Z.gtb_spec (Z.rem c 2) 0) as [H'|H']; [|reflexivity].
    pose proof (Z.rem_nonpos c 2). lia.
Qed.

Theorem applyBooleanOr_unary_spec UnitMax V :
  StronglySorted pos_le V -> cols_closed V ->
  exists out, applyBooleanOr_unary UnitMax V = Some out /\ canonical out /\
    forall x y, cnt out x y = b2z ((cnt V x y >? 0) && Z.odd (cnt V x y)).
Proof.
  intros Hs Hc.
  destruct (applyBooleanOr_gen_spec unary_ops unary_laws UnitMax eq_refl eq_refl V Hs Hc) as [out [H1 [H2 H3]]].
  exists out. split; [exact H1|]. split; [exact H2|]. intros x y. rewrite H3.
  cbn [unary_ops t_int]. rewrite rem2_pos. reflexivity.
Qed.

(* ---------- applyBooleanBinaryOp ---------- *)
Section Bin.
Context (f : Z -> Z -> bool) (Hf : f 0 0 = false) (UnitMax : Z).
Let ops := binary_ops f.
Let L : count_laws ops := binary_laws f Hf.

Definition below_max (V : list vertex) : Prop := Forall (fun v => vx v <= UnitMax /\ vy v <= UnitMax) V.

(* the merged stream of events *)
Fixpoint evs (n : nat) (l1 l2 : list vertex) : list (@tev (Z * Z)) :=
  match l1, l2 with
  | [], [] => []
  | _, _ =>
      match n with
      | O => []
      | S n' => let '(e, (l1', l2')) := next_event UnitMax l1 l2 in e :: evs n' l1' l2'
      end
  end.

Definition ev_ge (a b : Z) (e : @tev (Z * Z)) : Prop := a < ex e \/ (a = ex e /\ b <= ey e).
Definition v_ge (a b : Z) (v : vertex) : Prop := a < vx v \/ (a = vx v /\ b <= vy v).

Lemma next_event_spec l1 l2 e l1' l2' :
  StronglySorted pos_le l1 -> StronglySorted pos_le l2 -> below_max l2 ->
  (l1 <> [] \/ l2 <> []) ->
  next_event UnitMax l1 l2 = (e, (l1', l2')) ->
  (length l1' + length l2' < length l1 + length l2)%nat /\
  StronglySorted pos_le l1' /\ StronglySorted pos_le l2' /\ below_max l2' /\
  Forall (v_ge (ex e) (ey e)) l1' /\ Forall (v_ge (ex e) (ey e)) l2' /\
  (forall a b, Forall (v_ge a b) l1 -> Forall (v_ge a b) l2 ->
     ev_ge a b e /\ Forall (v_ge a b) l1' /\ Forall (v_ge a b) l2') /\
  (forall p, (vsum p l1, vsum p l2) =
     t_add ops (if p (ex e) (ey e) then ec e else (0, 0)) (vsum p l1', vsum p l2')).
Proof.
  intros S1 S2 B2 Hne H. unfold next_event in H.
  destruct l1 as [|v l1], l2 as [|w l2].
  - destruct Hne as [Hn|Hn]; contradiction Hn; reflexivity.
  - inversion B2 as [|? ? Bw B2']; subst. inversion S2 as [|? ? S2' S2'']; subst.
    assert (Hw : Forall (v_ge (vx w) (vy w)) l2).
    { eapply Forall_impl; [|exact S2'']. intros u Hu. unfold pos_le, v_ge in *. lia. }
    assert (Hres : e = (vx w, vy w, (0, vc w)) /\ l1' = [] /\ l2' = l2).
    { destruct ((vx w <? UnitMax) || ((vx w =? UnitMax) && (vy w <? UnitMax))) eqn:Ec.
      - injection H as H1 H2 H3. repeat split; congruence.
      - destruct ((vx w =? UnitMax) && (vy w =? UnitMax)) eqn:Ec2.
        + injection H as H1 H2 H3. apply andb_true_iff in Ec2. rewrite !Z.eqb_eq in Ec2.
          destruct Ec2 as [E1 E2]. cbn [tl] in H2. rewrite E1, E2. repeat split; congruence.
        + exfalso. lia. }
    destruct Hres as [E1 [E2 E3]]. subst e l1' l2'. unfold ex, ey, ec. cbn [fst snd].
    split; [cbn [length]; lia|]. split; [constructor|]. split; [exact S2'|]. split; [exact B2'|].
    split; [constructor|]. split; [exact Hw|]. split.
    + intros a b _ Ha. inversion Ha; subst. split; [assumption|]. split; [constructor|assumption].
    + intros p. cbn [vsum]. unfold ops. cbn [binary_ops t_add fst snd].
      destruct (p (vx w) (vy w)); reflexivity.
  - injection H as H1 H2 H3. subst e l1' l2'. cbn [tl].
    inversion S1 as [|? ? S1' S1'']; subst.
    assert (Hv : Forall (v_ge (vx v) (vy v)) l1).
    { eapply Forall_impl; [|exact S1'']. intros u Hu. unfold pos_le, v_ge in *. lia. }
    unfold ex, ey, ec. cbn [fst snd].
    split; [cbn [length]; lia|]. split; [exact S1'|]. split; [constructor|]. split; [exact B2|].
    split; [exact Hv|]. split; [constructor|]. split.
    + intros a b Ha _. inversion Ha; subst. split; [assumption|]. split; [assumption|constructor].
    + intros p. cbn [vsum]. unfold ops. cbn [binary_ops t_add fst snd].
      destruct (p (vx v) (vy v)); cbn [fst snd]; f_equal; lia.
  - inversion S1 as [|? ? S1' S1'']; subst. inversion S2 as [|? ? S2' S2'']; subst.
    inversion B2 as [|? ? Bw B2']; subst.
    assert (Hv : Forall (v_ge (vx v) (vy v)) l1).
    { eapply Forall_impl; [|exact S1'']. intros u Hu. unfold pos_le, v_ge in *. lia. }
    assert (Hw : Forall (v_ge (vx w) (vy w)) l2).
    { eapply Forall_impl; [|exact S2'']. intros u Hu. unfold pos_le, v_ge in *. lia. }
    destruct ((vx w <? vx v) || ((vx w =? vx v) && (vy w <? vy v))) eqn:Ec.
    + injection H as H1 H2 H3. subst e l1' l2'. unfold ex, ey, ec. cbn [fst snd].
      split; [cbn [length]; lia|]. split; [exact S1|]. split; [exact S2'|]. split; [exact B2'|].
      split; [|split; [exact Hw|split]].
      * constructor; [unfold v_ge; lia|]. eapply Forall_impl; [|exact Hv].
        intros u Hu. unfold v_ge in *. lia.
      * intros a b Ha Hb. inversion Hb; subst. repeat split; assumption.
      * intros p. cbn [vsum]. unfold ops. cbn [binary_ops t_add fst snd].
        destruct (p (vx w) (vy w)); cbn [fst snd]; f_equal; lia.
    + destruct ((vx w =? vx v) && (vy w =? vy v)) eqn:Ec2.
      * injection H as H1 H2 H3. subst e l1' l2'. cbn [tl]. unfold ex, ey, ec. cbn [fst snd].
        apply andb_true_iff in Ec2. rewrite !Z.eqb_eq in Ec2. destruct Ec2 as [E1 E2].
        split; [cbn [length]; lia|]. split; [exact S1'|]. split; [exact S2'|]. split; [exact B2'|].
        split; [exact Hv|]. split; [rewrite <- E1, <- E2; exact Hw|]. split.
        -- intros a b Ha Hb. inversion Ha; subst. inversion Hb; subst. repeat split; assumption.
        -- intros p. cbn [vsum]. rewrite E1, E2. unfold ops. cbn [binary_ops t_add fst snd].
           destruct (p (vx v) (vy v)); cbn [fst snd]; f_equal; lia.
      * injection H as H1 H2 H3. subst e l1' l2'. cbn [tl]. unfold ex, ey, ec. cbn [fst snd].
        split; [cbn [length]; lia|]. split; [exact S1'|]. split; [exact S2|]. split; [exact B2|].
        split; [exact Hv|]. split; [|split].
        -- constructor; [unfold v_ge; lia|]. eapply Forall_impl; [|exact Hw].
           intros u Hu. unfold v_ge in *. lia.
        -- intros a b Ha Hb. inversion Ha; subst. repeat split; assumption.
        -- intros p. cbn [vsum]. unfold ops. cbn [binary_ops t_add fst snd].
           destruct (p (vx v) (vy v)); cbn [fst snd]; f_equal; lia.
Qed.

Lemma evs_spec n : forall l1 l2,
  StronglySorted pos_le l1 -> StronglySorted pos_le l2 -> below_max l2 ->
  (length l1 + length l2 <= n)%nat ->
  StronglySorted ev_le (evs n l1 l2) /\
  (forall a b, Forall (v_ge a b) l1 -> Forall (v_ge a b) l2 -> Forall (ev_ge a b) (evs n l1 l2)) /\
  (forall p, tsum ops p (evs n l1 l2) = (vsum p l1, vsum p l2)).
Proof.
  induction n as [|n IH]; intros l1 l2 S1 S2 B2 Hn.
  - destruct l1 as [|v l1]; [|cbn [length] in Hn; lia]. destruct l2 as [|w l2]; [|cbn [length] in Hn; lia].
    cbn [evs]. repeat split; constructor.
  - destruct l1 as [|v l1], l2 as [|w l2].
    + cbn [evs]. repeat split; constructor.
    + cbn [evs]. destruct (next_event UnitMax [] (w :: l2)) as [e [l1' l2']] eqn:En.
      destruct (next_event_spec [] (w :: l2) e l1' l2' S1 S2 B2) as [N1 [N2 [N3 [N4 [N5 [N6 [N7 N8]]]]]]];
        [right; discriminate|exact En|].
      destruct (IH l1' l2' N2 N3 N4) as [I1 [I2 I3]]; [lia|]. repeat split.
      * constructor; [exact I1|]. exact (I2 _ _ N5 N6).
      * intros a b Ha Hb. destruct (N7 a b Ha Hb) as [M1 [M2 M3]]. constructor; [exact M1|]. exact (I2 _ _ M2 M3).
      * intros p. cbn [tsum]. rewrite I3, N8. reflexivity.
    + cbn [evs]. destruct (next_event UnitMax (v :: l1) []) as [e [l1' l2']] eqn:En.
      destruct (next_event_spec (v :: l1) [] e l1' l2' S1 S2 B2) as [N1 [N2 [N3 [N4 [N5 [N6 [N7 N8]]]]]]];
        [left; discriminate|exact En|].
      destruct (IH l1' l2' N2 N3 N4) as [I1 [I2 I3]]; [lia|]. repeat split.
      * constructor; [exact I1|]. exact (I2 _ _ N5 N6).
      * intros a b Ha Hb. destruct (N7 a b Ha Hb) as [M1 [M2 M3]]. constructor; [exact M1|]. exact (I2 _ _ M2 M3).
      * intros p. cbn [tsum]. rewrite I3, N8. reflexivity.
    + cbn [evs]. destruct (next_event UnitMax (v :: l1) (w :: l2)) as [e [l1' l2']] eqn:En.
      destruct (next_event_spec (v :: l1) (w :: l2) e l1' l2' S1 S2 B2) as [N1 [N2 [N3 [N4 [N5 [N6 [N7 N8]]]]]]];
        [left; discriminate|exact En|].
      destruct (IH l1' l2' N2 N3 N4) as [I1 [I2 I3]]; [lia|]. repeat split.
      * constructor; [exact I1|]. exact (I2 _ _ N5 N6).
      * intros a b Ha Hb. destruct (N7 a b Ha Hb) as [M1 [M2 M3]]. constructor; [exact M1|]. exact (I2 _ _ M2 M3).
      * intros p. cbn [tsum]. rewrite I3, N8. reflexivity.
Qed.

Definition bin2gs (s : bin_state) : gs :=
  mk_gs (bin_prevCoord s) (bin_prevPosition s) (bin_count s) (bin_bo s) (bin_rout s).

Lemma bin_step_gen s e : option_map bin2gs (bin_step f s e) = gen_step ops (bin2gs s) e.
Proof.
  destruct e as [[cx cy] c]. unfold bin_step, gen_step, bin2gs, ex, ey, ec.
  cbn [fst snd g_x g_y g_c g_bo g_rout].
  destruct (bin_prevCoord s =? cx); cbn [negb]; [|reflexivity].
  fold ops. change (t_null ops) with (0, 0).
  destruct (negb (cy =? bin_prevPosition s) && negb (t_eqb ops (bin_count s) (0, 0))).
  - destruct (processInterval ops (bin_bo s) (bin_prevPosition s) cy (bin_count s)) as [[bo k]|]; reflexivity.
  - reflexivity.
Qed.

Lemma bin_loop_gen n : forall s l1 l2,
  StronglySorted pos_le l1 -> StronglySorted pos_le l2 -> below_max l2 ->
  (length l1 + length l2 <= n)%nat ->
  option_map bin2gs (bin_loop f UnitMax n s l1 l2) = gen_loop ops (bin2gs s) (evs n l1 l2).
Proof.
  induction n as [|n IH]; intros s l1 l2 S1 S2 B2 Hn.
  - destruct l1 as [|v l1]; [|cbn [length] in Hn; lia]. destruct l2 as [|w l2]; [|cbn [length] in Hn; lia].
    reflexivity.
  - assert (Hstep : (l1 <> [] \/ l2 <> []) ->
      option_map bin2gs (let '(e, (l1', l2')) := next_event UnitMax l1 l2 in
          do s' <- bin_step f s e; bin_loop f UnitMax n s' l1' l2')
      = gen_loop ops (bin2gs s) (let '(e, (l1', l2')) := next_event UnitMax l1 l2 in e :: evs n l1' l2')).
    { intros Hne. destruct (next_event UnitMax l1 l2) as [e [l1' l2']] eqn:En.
      destruct (next_event_spec l1 l2 e l1' l2' S1 S2 B2 Hne En) as [N1 [N2 [N3 [N4 _]]]].
      cbn [gen_loop]. rewrite <- bin_step_gen.
      destruct (bin_step f s e) as [s'|]; cbn [bind option_map]; [|reflexivity].
      apply IH; try assumption. lia. }
    destruct l1 as [|v l1], l2 as [|w l2]; cbn [bin_loop evs].
    + reflexivity.
    + apply Hstep. right. discriminate.
    + apply Hstep. left. discriminate.
    + apply Hstep. left. discriminate.
Qed.

Theorem applyBooleanBinaryOp_spec l1 l2 :
  StronglySorted pos_le l1 -> StronglySorted pos_le l2 -> below_max l2 ->
  cols_closed l1 -> cols_closed l2 ->
  exists out, applyBooleanBinaryOp f UnitMax l1 l2 = Some out /\ canonical out /\
    forall x y, cnt out x y = b2z (f (cnt l1 x y) (cnt l2 x y)).
Proof.
  intros S1 S2 B2 C1 C2.
  assert (Hmain : (l1 <> [] \/ l2 <> []) ->
    exists out, (let '(start, (l1', l2')) := next_event UnitMax l1 l2 in
       let '(c, p, n) := start in
       do s <- bin_loop f UnitMax (length l1 + length l2) (mk_bin c p n bo_init []) l1' l2';
       Some (rev (bin_rout s))) = Some out /\ canonical out /\
       forall x y, cnt out x y = b2z (f (cnt l1 x y) (cnt l2 x y))).
  { intros Hne. set (n := (length l1 + length l2)%nat).
    destruct (evs_spec (S n) l1 l2 S1 S2 B2) as [E1 [_ E3]]; [unfold n; lia|].
    assert (Hevs : evs (S n) l1 l2 =
      let '(e, (l1', l2')) := next_event UnitMax l1 l2 in e :: evs n l1' l2').
    { destruct l1 as [|v l1], l2 as [|w l2]; cbn [evs]; try reflexivity.
      destruct Hne as [Hn|Hn]; contradiction Hn; reflexivity. }
    destruct (next_event UnitMax l1 l2) as [e [l1' l2']] eqn:En.
    destruct (next_event_spec l1 l2 e l1' l2' S1 S2 B2 Hne En) as [N1 [N2 [N3 [N4 _]]]].
    rewrite Hevs in *.
    assert (Hcl : tcols_closed ops (e :: evs n l1' l2')).
    { intros x. rewrite E3, <- !col_total_vsum, C1, C2. reflexivity. }
    destruct (gen_scan ops L e (evs n l1' l2') E1 Hcl) as [s' [P1 [P2 P3]]].
    destruct e as [[c p] k].
    pose proof (bin_loop_gen n (mk_bin c p k bo_init []) l1' l2' N2 N3 N4 ltac:(unfold n; lia)) as Hl.
    unfold bin2gs at 2 in Hl. cbn [bin_prevCoord bin_prevPosition bin_count bin_bo bin_rout] in Hl.
    change (mk_gs c p k bo_init []) with (mk_gs (ex (c, p, k)) (ey (c, p, k)) (ec (c, p, k)) bo_init []) in Hl.
    rewrite P1 in Hl.
    destruct (bin_loop f UnitMax n (mk_bin c p k bo_init []) l1' l2') as [s|]; cbn [option_map] in Hl; [|discriminate Hl].
    injection Hl as Hl. cbn [bind]. exists (rev (bin_rout s)). split; [reflexivity|].
    subst s'. cbn [bin2gs g_rout] in *. split; [exact P2|].
    intros x y. rewrite P3. unfold ind, tcnt. rewrite E3, <- !cnt_vsum.
    unfold ops. cbn [binary_ops t_int fst snd].
    destruct (f (cnt l1 x y) (cnt l2 x y)); reflexivity. }
  unfold applyBooleanBinaryOp.
  destruct l1 as [|v l1], l2 as [|w l2].
  - exists []. cbn [length Nat.add bin_loop bind bin_rout rev]. split; [reflexivity|].
    split; [split; constructor|]. intros x y. cbn [cnt]. rewrite Hf. reflexivity.
  - apply Hmain. right. discriminate.
  - apply Hmain. left. discriminate.
  - apply Hmain. left. discriminate.
Qed.
End Bin.
