(* What one call of BooleanOp::processInterval does to the scan map. *)
From Verif Require Import Base Scan90Spec BoolOpModel ScanMap.

Record count_laws {T : Type} (ops : count_ops T) : Prop := {
  cl_comm : forall a b, t_add ops a b = t_add ops b a;
  cl_assoc : forall a b c, t_add ops a (t_add ops b c) = t_add ops (t_add ops a b) c;
  cl_null : forall a, t_add ops (t_null ops) a = a;
  cl_eqb : forall a b, t_eqb ops a b = true <-> a = b;
  cl_int_null : t_int ops (t_null ops) <= 0
}.

Section Process.
Context {T : Type} (ops : count_ops T) (L : count_laws ops).
Notation null := (t_null ops).
Notation add := (t_add ops).
Implicit Types (m A B C P : smap T).

Lemma sorted_mid k v P C : ksorted (P ++ (k, v) :: C) ->
  klt k P /\ kge (k + 1) C /\ ksorted P /\ ksorted C.
Proof.
  intros H. apply ksorted_app in H. destruct H as [H1 [H2 H3]].
  apply ksorted_cons in H2. destruct H2 as [H2 H4]. repeat split; try assumption.
  apply Forall_forall. intros a Ha. exact (H3 a (k, v) Ha (or_introl eq_refl)).
Qed.

Lemma split_unique k A C A' C' :
  A ++ C = A' ++ C' -> klt k A -> kge k C -> klt k A' -> kge k C' -> A = A' /\ C = C'.
Proof.
  revert A'. induction A as [|[a v] A IH]; intros A' E HA HC HA' HC'.
  - destruct A' as [|[a' v'] A']; cbn [app] in E.
    + split; [reflexivity|exact E].
    + subst C. apply kge_cons in HC. apply klt_cons in HA'. lia.
  - destruct A' as [|[a' v'] A']; cbn [app] in E.
    + subst C'. apply klt_cons in HA. apply kge_cons in HC'. lia.
    + injection E as E1 E2 E3. subst a' v'. apply klt_cons in HA. apply klt_cons in HA'.
      destruct (IH A' E3 (proj2 HA) HC (proj2 HA') HC') as [E4 E5].
      subst. split; reflexivity.
Qed.

(* the hint iterator nextItr_ does not skip elements that matter for lookups
   at positions >= pos *)
Definition hint_ok (s : bo_state T) (pos : Z) : Prop :=
  match nextItr s with
  | None => True
  | Some k => exists A v C, scanData s = A ++ (k, v) :: C /\ klt pos A
  end.

Lemma hint_ok_mono s p q : p <= q -> hint_ok s p -> hint_ok s q.
Proof.
  unfold hint_ok. intros Hpq. destruct (nextItr s) as [k|]; [|intros; exact I].
  intros [A [v [C [E H]]]]. exists A, v, C. split; [exact E|]. eapply klt_weaken; eassumption.
Qed.

Lemma hint_ok_begin m A C pos : m = A ++ C -> klt pos A -> hint_ok (mk_bo m (m_begin C)) pos.
Proof.
  intros E H. unfold hint_ok. cbn [nextItr scanData].
  destruct C as [|[k v] C]; cbn [m_begin]; [exact I|]. exists A, v, C. split; assumption.
Qed.

Lemma lookup_spec s pos A C :
  ksorted (scanData s) -> hint_ok s pos -> scanData s = A ++ C -> klt pos A -> kge pos C ->
  lookup_ pos s = Some (m_begin C, mk_bo (scanData s) (m_begin C)).
Proof.
  intros Hs Hh E HA HC. destruct s as [m h]. cbn [scanData] in *. unfold lookup_.
  cbn [nextItr scanData]. unfold hint_ok in Hh. cbn [nextItr scanData] in Hh.
  assert (Hlb : m_lower_bound pos m = m_begin C).
  { rewrite E. apply m_lower_bound_app; assumption. }
  destruct h as [k|].
  - destruct Hh as [A' [v [C' [E' HA']]]].
    assert (Hm : klt k A'). { rewrite E' in Hs. apply sorted_mid in Hs. apply Hs. }
    rewrite E' at 1. rewrite (m_deref_mid k v A' C' Hm). cbn [bind].
    destruct (Z.geb_spec k pos) as [Hk|Hk].
    + assert (Hu : A = A' /\ C = (k, v) :: C').
      { apply (split_unique pos); try assumption.
        - rewrite <- E. exact E'.
        - apply kge_cons. split; [lia|]. rewrite E' in Hs. apply sorted_mid in Hs.
          destruct Hs as [_ [Hs _]]. eapply kge_weaken; [|exact Hs]. lia. }
      destruct Hu as [_ Hu]. subst C. reflexivity.
    + rewrite Hlb. reflexivity.
  - rewrite Hlb. reflexivity.
Qed.

(* C with an element at key k, taking the value d if it is new *)
Definition with_key (k : Z) (d : T) (C : smap T) : smap T :=
  match C with
  | (k', _) :: _ => if k' =? k then C else (k, d) :: C
  | [] => [(k, d)]
  end.

Lemma with_key_cons k d C : exists v C', with_key k d C = (k, v) :: C'.
Proof.
  destruct C as [|[k' v'] C]; cbn [with_key].
  - exists d, []. reflexivity.
  - destruct (Z.eqb_spec k' k) as [E|E].
    + subst k'. exists v', C. reflexivity.
    + exists d, ((k', v') :: C). reflexivity.
Qed.

Lemma with_key_sorted k d C : ksorted C -> kge k C -> ksorted (with_key k d C) /\ kge k (with_key k d C).
Proof.
  intros Hs Hg. destruct C as [|[k' v'] C]; cbn [with_key].
  - split; [repeat constructor|]. apply kge_cons. split; [lia|constructor].
  - destruct (Z.eqb_spec k' k) as [E|E]; [split; assumption|].
    pose proof Hg as Hg0. apply kge_cons in Hg. destruct Hg as [H1 H2]. split.
    + apply ksorted_cons. split; [exact Hs|]. apply kge_cons. split; [lia|].
      apply ksorted_cons in Hs. destruct Hs as [_ Hs]. eapply kge_weaken; [|exact Hs]. lia.
    + apply kge_cons. split; [lia|exact Hg0].
Qed.

Lemma with_key_app k d B C : kge (k + 1) C -> with_key k d (B ++ C) = with_key k d B ++ C.
Proof.
  intros H. destruct B as [|[k' v'] B]; cbn [app with_key].
  - destruct C as [|[k' v'] C]; [reflexivity|]. apply kge_cons in H. cbn [with_key].
    destruct (Z.eqb_spec k' k); [lia|reflexivity].
  - destruct (k' =? k); reflexivity.
Qed.

Lemma lastval_snoc d P a v : lastval d (P ++ [(a, v)]) = v.
Proof. rewrite lastval_app. reflexivity. Qed.

Lemma snoc_cases (P : smap T) : P = [] \/ exists P' a v, P = P' ++ [(a, v)].
Proof.
  destruct P as [|p P]; [left; reflexivity|right].
  destruct (@exists_last _ (p :: P)) as [P' [[a v] E]]; [discriminate|].
  exists P', a, v. exact E.
Qed.

(* previous element of the first element of C *)
Lemma decr_snoc P a v C : ksorted (P ++ (a, v) :: C) ->
  m_decr (m_begin C) (P ++ (a, v) :: C) = Some (Some a).
Proof.
  intros H. pose proof (sorted_mid a v P C H) as [H1 [H2 _]].
  apply m_decr_app.
  - eapply klt_weaken; [|exact H1]. lia.
  - destruct C as [|[k w] C]; cbn [m_begin it_gt]; [exact I|]. apply kge_cons in H2. lia.
Qed.

Lemma begin_ne_nonempty (P : smap T) a v C : ksorted ((P ++ [(a, v)]) ++ C) ->
  iter_eqb (m_begin C) (m_begin ((P ++ [(a, v)]) ++ C)) = false.
Proof.
  intros H. destruct C as [|[k w] C].
  - destruct P as [|[p pv] P]; reflexivity.
  - assert (Hlt : klt k (P ++ [(a, v)])). { apply sorted_mid in H. apply H. }
    destruct P as [|[p pv] P]; cbn [app m_begin].
    + apply klt_cons in Hlt. apply iter_eqb_false. lia.
    + cbn [app] in Hlt. apply klt_cons in Hlt. apply iter_eqb_false. lia.
Qed.

Lemma ensure_high_spec P C h high :
  ksorted (P ++ C) -> klt high P -> kge high C ->
  exists h', ensure_high ops high (m_begin C) (mk_bo (P ++ C) h)
    = Some (Some high, mk_bo (P ++ with_key high (lastval null P) C) h').
Proof.
  intros Hs HP HC. unfold ensure_high. cbn [scanData].
  assert (Hpast : (do past <- match m_begin C with
             | None => Some true
             | Some _ => do '(k, _) <- m_deref (m_begin C) (P ++ C); Some (k >? high)
             end; Some past) = Some (match C with [] => true | (k, _) :: _ => k >? high end)).
  { destruct C as [|[k v] C]; cbn [m_begin bind]; [reflexivity|].
    rewrite m_deref_mid; [reflexivity|]. apply sorted_mid in Hs. apply Hs. }
  set (pe := match m_begin C with
             | None => Some true
             | Some _ => do '(k, _) <- m_deref (m_begin C) (P ++ C); Some (k >? high)
             end) in *.
  assert (Epe : pe = Some (match C with [] => true | (k, _) :: _ => k >? high end)).
  { destruct pe; cbn [bind] in Hpast; congruence. }
  rewrite Epe. cbn [bind].
  destruct (match C with [] => true | (k, _) :: _ => k >? high end) eqn:Ep.
  - assert (Hwk : with_key high (lastval null P) C = (high, lastval null P) :: C /\ kge (high + 1) C).
    { destruct C as [|[k v] C]; [split; [reflexivity|constructor]|]. cbn [with_key].
      apply Z.gtb_lt in Ep. destruct (Z.eqb_spec k high) as [Ek|Ek]; [lia|].
      split; [reflexivity|]. apply kge_cons. split; [lia|].
      apply sorted_mid in Hs. destruct Hs as [_ [Hs _]]. eapply kge_weaken; [|exact Hs]. lia. }
    destruct Hwk as [Hwk HC1]. rewrite Hwk.
    destruct (snoc_cases P) as [E|[P' [a [v E]]]].
    + subst P. cbn [app lastval]. rewrite iter_eqb_refl. cbn [negb].
      unfold insert_. cbn [nextItr scanData].
      assert (Hv : m_valid (m_begin C) C = Some tt).
      { destruct C as [|[k v] C]; [reflexivity|]. cbn [m_begin m_valid m_find].
        rewrite Z.eqb_refl. reflexivity. }
      rewrite Hv. cbn [bind]. exists (Some high).
      pose proof (m_insert_mid high null [] C HP HC1) as Hi. cbn [app] in Hi. rewrite Hi. reflexivity.
    + assert (Hne : iter_eqb (m_begin C) (m_begin (P ++ C)) = false).
      { subst P. apply begin_ne_nonempty. exact Hs. }
      rewrite Hne. cbn [negb].
      assert (Hd : m_decr (m_begin C) (P ++ C) = Some (Some a)).
      { subst P. rewrite <- app_assoc in *. apply decr_snoc. exact Hs. }
      rewrite Hd. cbn [bind].
      assert (Ha : klt a P').
      { subst P. rewrite <- app_assoc in Hs. apply sorted_mid in Hs. apply Hs. }
      assert (Hde : m_deref (Some a) (P ++ C) = Some (a, v)).
      { subst P. rewrite <- app_assoc. apply m_deref_mid. exact Ha. }
      rewrite Hde. cbn [bind]. unfold insert_. cbn [nextItr scanData].
      assert (Hv : m_valid (Some a) (P ++ C) = Some tt).
      { subst P. rewrite <- app_assoc. apply m_valid_mid. exact Ha. }
      rewrite Hv. cbn [bind]. exists (Some high).
      rewrite (m_insert_mid high v P C HP HC1). subst P. rewrite lastval_snoc. reflexivity.
  - destruct C as [|[k v] C]; [discriminate Ep|]. apply kge_cons in HC.
    assert (Ek : k = high) by lia. subst k. cbn [with_key m_begin]. rewrite Z.eqb_refl.
    exists h. reflexivity.
Qed.

Lemma split_low_spec A C h low :
  ksorted (A ++ C) -> klt low A -> kge low C -> C <> [] ->
  exists h', split_low ops low (m_begin C) (mk_bo (A ++ C) h)
    = Some (Some low, mk_bo (A ++ with_key low (lastval null A) C) h').
Proof.
  intros Hs HA HC Hne.
  destruct (ensure_high_spec A C h low Hs HA HC) as [h' H]. exists h'. rewrite <- H.
  unfold ensure_high, split_low. cbn [scanData].
  destruct C as [|[k v] C]; [contradiction Hne; reflexivity|]. cbn [m_begin].
  destruct (m_deref (Some k) (A ++ (k, v) :: C)) as [[k' v']|] eqn:Ed; [|reflexivity].
  cbn [bind]. reflexivity.
Qed.

(* lowItr found before the insertion of high, and the inserted element is just before it *)
Lemma split_low_after_high A C h low high d :
  ksorted (A ++ (high, d) :: C) -> klt low A -> low < high -> C <> [] ->
  d = lastval null A ->
  exists h', split_low ops low (m_begin C) (mk_bo (A ++ (high, d) :: C) h)
    = Some (Some low, mk_bo (A ++ (low, d) :: (high, d) :: C) h').
Proof.
  intros Hs HA Hlh Hne Hd. unfold split_low. cbn [scanData].
  pose proof (sorted_mid high d A C Hs) as [H1 [H2 [H3 H4]]].
  destruct C as [|[k v] C]; [contradiction Hne; reflexivity|]. cbn [m_begin].
  apply kge_cons in H2. destruct H2 as [H2 H2'].
  assert (Hde : m_deref (Some k) (A ++ (high, d) :: (k, v) :: C) = Some (k, v)).
  { change (A ++ (high, d) :: (k, v) :: C) with (A ++ [(high, d)] ++ (k, v) :: C).
    rewrite app_assoc. apply m_deref_mid. apply klt_app. split.
    - eapply klt_weaken; [|exact H1]. lia.
    - apply klt_cons. split; [lia|constructor]. }
  rewrite Hde. cbn [bind].
  destruct (Z.gtb_spec k low) as [Hk|Hk]; [|lia].
  assert (Hb : iter_eqb (Some k) (m_begin (A ++ (high, d) :: (k, v) :: C)) = false).
  { destruct A as [|[a va] A]; cbn [app m_begin]; apply iter_eqb_false.
    - lia.
    - apply klt_cons in HA. lia. }
  rewrite Hb. cbn [negb].
  assert (Hdec : m_decr (Some k) (A ++ (high, d) :: (k, v) :: C) = Some (Some high)).
  { apply (decr_snoc A high d ((k, v) :: C)). exact Hs. }
  rewrite Hdec. cbn [bind]. rewrite (m_deref_mid high d A _ H1). cbn [bind].
  unfold insert_. cbn [nextItr scanData]. rewrite (m_valid_mid high d A _ H1). cbn [bind].
  exists (Some low). rewrite m_insert_mid; [reflexivity|exact HA|].
  apply kge_cons. split; [lia|]. apply kge_cons. split; [lia|]. eapply kge_weaken; [|exact H2']. lia.
Qed.

(* output of the loop over the elements B, the last one ending at hi *)
Fixpoint outs (B : smap T) (hi : Z) (delta : T) : list out_edge :=
  match B with
  | [] => []
  | (k, v) :: B' =>
      evaluateInterval_ ops k (match B' with [] => hi | (k', _) :: _ => k' end) v (add v delta)
        ++ outs B' hi delta
  end.

Definition add_all (delta : T) (B : smap T) : smap T := map (fun p => (fst p, add (snd p) delta)) B.

Lemma add_all_sorted delta B : ksorted B -> ksorted (add_all delta B).
Proof.
  induction B as [|[k v] B IH]; intros H; [constructor|]. cbn [add_all map fst snd].
  apply ksorted_cons in H. destruct H as [H1 H2]. apply ksorted_cons. split; [apply IH; exact H1|].
  apply Forall_map. eapply Forall_impl; [|exact H2]. intros a Ha. exact Ha.
Qed.
Lemma add_all_klt k delta B : klt k B -> klt k (add_all delta B).
Proof. intros H. apply Forall_map. eapply Forall_impl; [|exact H]. intros a Ha. exact Ha. Qed.
Lemma add_all_kge k delta B : kge k B -> kge k (add_all delta B).
Proof. intros H. apply Forall_map. eapply Forall_impl; [|exact H]. intros a Ha. exact Ha. Qed.

Lemma interval_loop_spec B : forall P hi vh C delta out fuel,
  ksorted (P ++ B ++ (hi, vh) :: C) -> (length B < fuel)%nat ->
  interval_loop ops fuel (m_begin (B ++ (hi, vh) :: C)) (Some hi) delta (P ++ B ++ (hi, vh) :: C) out
  = Some (P ++ add_all delta B ++ (hi, vh) :: C, out ++ outs B hi delta).
Proof.
  induction B as [|[k v] B IH]; intros P hi vh C delta out fuel Hs Hf.
  - destruct fuel as [|fuel]; [cbn [length] in Hf; lia|]. cbn [app m_begin interval_loop].
    rewrite iter_eqb_refl. cbn [add_all map outs]. rewrite app_nil_r. reflexivity.
  - destruct fuel as [|fuel]; [lia|]. cbn [length] in Hf.
    cbn [app m_begin interval_loop].
    pose proof (sorted_mid k v P (B ++ (hi, vh) :: C) Hs) as [H1 [H2 [H3 H4]]].
    assert (Hk : k < hi).
    { apply kge_app in H2. destruct H2 as [_ H2]. apply kge_cons in H2. lia. }
    rewrite iter_eqb_false by lia.
    rewrite (m_deref_mid k v P (B ++ (hi, vh) :: C) H1). cbn [bind].
    rewrite (m_set_mid k v (add v delta) P _ H1). cbn [m_incr].
    rewrite (m_next_mid k (add v delta) P _ H1). cbn [bind].
    set (P' := P ++ [(k, add v delta)]).
    assert (EP : P ++ (k, add v delta) :: B ++ (hi, vh) :: C = P' ++ B ++ (hi, vh) :: C).
    { unfold P'. rewrite <- app_assoc. reflexivity. }
    rewrite EP.
    assert (Hs' : ksorted (P' ++ B ++ (hi, vh) :: C)).
    { rewrite <- EP. apply ksorted_app. apply ksorted_app in Hs. destruct Hs as [S1 [S2 S3]].
      split; [exact S1|]. split.
      - apply ksorted_cons. split; assumption.
      - intros a b Ha [Hb|Hb].
        + subst b. exact (S3 a (k, v) Ha (or_introl eq_refl)).
        + apply S3; [exact Ha|right; exact Hb]. }
    assert (Hd : exists w, m_deref (m_begin (B ++ (hi, vh) :: C)) (P' ++ B ++ (hi, vh) :: C)
               = Some (match B with [] => hi | (k', _) :: _ => k' end, w)).
    { destruct B as [|[k' v'] B]; cbn [app m_begin].
      - exists vh. apply m_deref_mid. apply sorted_mid in Hs'. apply Hs'.
      - exists v'. apply m_deref_mid. cbn [app] in Hs'. apply sorted_mid in Hs'. apply Hs'. }
    destruct Hd as [w Hd]. rewrite Hd. cbn [bind].
    rewrite (IH P' hi vh C delta _ fuel Hs') by lia. f_equal. f_equal.
    + unfold P'. rewrite <- app_assoc. reflexivity.
    + cbn [outs]. rewrite app_assoc. reflexivity.
Qed.

(* the elements from low on after merging with the element below *)
Definition drop_low (A B : smap T) : smap T :=
  match A, B with
  | _ :: _, (_, v) :: B' => if t_eqb ops (lastval null A) v then B' else B
  | _, _ => B
  end.

Lemma merge_low_spec A low v R : ksorted (A ++ (low, v) :: R) ->
  merge_low ops (Some low) (A ++ (low, v) :: R) = Some (A ++ drop_low A ((low, v) :: R)).
Proof.
  intros Hs. unfold merge_low.
  pose proof (sorted_mid low v A R Hs) as [H1 [H2 [H3 H4]]].
  destruct (snoc_cases A) as [E|[A' [a [va E]]]].
  - subst A. cbn [app m_begin]. rewrite iter_eqb_refl. cbn [negb drop_low]. reflexivity.
  - assert (Hb : iter_eqb (Some low) (m_begin (A ++ (low, v) :: R)) = false).
    { subst A. apply (begin_ne_nonempty A' a va ((low, v) :: R)). exact Hs. }
    rewrite Hb. cbn [negb].
    assert (Hd : m_decr (Some low) (A ++ (low, v) :: R) = Some (Some a)).
    { subst A. rewrite <- app_assoc in *. apply (decr_snoc A' a va ((low, v) :: R)). exact Hs. }
    rewrite Hd. cbn [bind].
    assert (Hde : m_deref (Some a) (A ++ (low, v) :: R) = Some (a, va)).
    { subst A. rewrite <- app_assoc in *. apply m_deref_mid. apply sorted_mid in Hs. apply Hs. }
    rewrite Hde. cbn [bind]. rewrite (m_deref_mid low v A R H1). cbn [bind].
    assert (Hlv : lastval null A = va). { subst A. apply lastval_snoc. }
    assert (Hdl : drop_low A ((low, v) :: R) = if t_eqb ops va v then R else (low, v) :: R).
    { destruct A as [|p A]; [destruct A'; discriminate E|]. cbn [drop_low]. rewrite Hlv. reflexivity. }
    rewrite Hdl. destruct (t_eqb ops va v); [|reflexivity].
    rewrite (m_erase_mid low v A R H1). reflexivity.
Qed.

Lemma merge_high_spec P high v C : ksorted (P ++ (high, v) :: C) -> P <> [] ->
  merge_high ops (Some high) (P ++ (high, v) :: C)
  = Some (m_begin (drop_low P ((high, v) :: C)), P ++ drop_low P ((high, v) :: C)).
Proof.
  intros Hs Hne. unfold merge_high.
  pose proof (sorted_mid high v P C Hs) as [H1 [H2 [H3 H4]]].
  destruct (snoc_cases P) as [E|[P' [a [va E]]]]; [contradiction|].
  assert (Hb : iter_eqb (Some high) (m_begin (P ++ (high, v) :: C)) = false).
  { subst P. apply (begin_ne_nonempty P' a va ((high, v) :: C)). exact Hs. }
  rewrite Hb. cbn [negb].
  assert (Hd : m_decr (Some high) (P ++ (high, v) :: C) = Some (Some a)).
  { subst P. rewrite <- app_assoc in *. apply (decr_snoc P' a va ((high, v) :: C)). exact Hs. }
  rewrite Hd. cbn [bind].
  assert (Ha : klt a P'). { subst P. rewrite <- app_assoc in *. apply sorted_mid in Hs. apply Hs. }
  assert (Hde : m_deref (Some a) (P ++ (high, v) :: C) = Some (a, va)).
  { subst P. rewrite <- app_assoc in *. apply m_deref_mid. exact Ha. }
  rewrite Hde. cbn [bind]. rewrite (m_deref_mid high v P C H1). cbn [bind].
  assert (Hlv : lastval null P = va). { subst P. apply lastval_snoc. }
  assert (Hdl : drop_low P ((high, v) :: C) = if t_eqb ops va v then C else (high, v) :: C).
  { destruct P as [|p P]; [contradiction Hne; reflexivity|]. cbn [drop_low]. rewrite Hlv. reflexivity. }
  rewrite Hdl. destruct (t_eqb ops va v); [|reflexivity].
  rewrite (m_erase_mid high v P C H1). cbn [m_incr].
  assert (Hn : m_next a (P ++ C) = Some (m_begin C)).
  { subst P. rewrite <- app_assoc. apply m_next_mid. exact Ha. }
  rewrite Hn. reflexivity.
Qed.

(* ---------- the whole of processInterval ---------- *)
Definition pi_B1 A B low := with_key low (lastval null A) B.
Definition pi_B2 A B low delta := drop_low A (add_all delta (pi_B1 A B low)).
Definition pi_C1 A B C high := with_key high (lastval null (A ++ B)) C.
Definition pi_C2 A B C low high delta := drop_low (A ++ pi_B2 A B low delta) (pi_C1 A B C high).

Lemma drop_low_app A k v B C : drop_low A (((k, v) :: B) ++ C) = drop_low A ((k, v) :: B) ++ C.
Proof.
  destruct A as [|p A]; cbn [drop_low app]; [reflexivity|].
  destruct (t_eqb ops _ v); reflexivity.
Qed.

Lemma drop_low_sub A B : exists X, B = X ++ drop_low A B.
Proof.
  destruct A as [|p A], B as [|[k v] B]; cbn [drop_low]; try (exists []; reflexivity).
  destruct (t_eqb ops _ v).
  - exists [(k, v)]. reflexivity.
  - exists []. reflexivity.
Qed.

Lemma ksorted_drop P A B : ksorted (P ++ B) -> ksorted (P ++ drop_low A B).
Proof.
  intros H. destruct (drop_low_sub A B) as [X E]. rewrite E in H.
  apply ksorted_app in H. destruct H as [H1 [H2 H3]]. apply ksorted_app in H2. destruct H2 as [H4 [H5 H6]].
  apply ksorted_app. repeat split; try assumption.
  intros a b Ha Hb. apply H3; [exact Ha|]. apply in_or_app. right. exact Hb.
Qed.

Lemma drop_low_nonempty A k v B : A ++ drop_low A ((k, v) :: B) <> [].
Proof. destruct A as [|p A]; cbn [drop_low app]; discriminate. Qed.

Lemma with_key_klt k k' d B : klt k' B -> k < k' -> klt k' (with_key k d B).
Proof.
  intros H Hk. destruct B as [|[b v] B]; cbn [with_key].
  - apply klt_cons. split; [exact Hk|constructor].
  - destruct (b =? k); [exact H|]. apply klt_cons. split; [exact Hk|exact H].
Qed.

Lemma processInterval_form s A B C low high delta :
  scanData s = A ++ B ++ C -> ksorted (scanData s) -> lastval null (scanData s) = null ->
  klt low A -> kge low B -> klt high B -> kge high C -> low < high -> hint_ok s low ->
  delta <> null ->
  processInterval ops s low high delta =
  Some (mk_bo (A ++ pi_B2 A B low delta ++ pi_C2 A B C low high delta)
              (m_begin (pi_C2 A B C low high delta)),
        outs (pi_B1 A B low) high delta).
Proof.
  intros E Hs Hlast HA HB1 HB2 HC Hlh Hh Hdelta.
  assert (HBC : kge low (B ++ C)).
  { apply kge_app. split; [exact HB1|]. eapply kge_weaken; [|exact HC]. lia. }
  assert (HAB : klt high (A ++ B)).
  { apply klt_app. split; [|exact HB2]. eapply klt_weaken; [|exact HA]. lia. }
  pose proof Hs as Hs0. rewrite E in Hs0.
  pose proof Hs0 as Hs1. apply ksorted_app in Hs1. destruct Hs1 as [SA [SBC HABC]].
  apply ksorted_app in SBC. destruct SBC as [SB [SC _]].
  unfold processInterval.
  rewrite (lookup_spec s low A (B ++ C) Hs Hh E HA HBC). cbn [bind].
  assert (Hl2 : lookup_ high (mk_bo (scanData s) (m_begin (B ++ C)))
     = Some (m_begin C, mk_bo (scanData s) (m_begin C))).
  { rewrite (lookup_spec (mk_bo (scanData s) (m_begin (B ++ C))) high (A ++ B) C); cbn [scanData].
    - reflexivity.
    - exact Hs.
    - apply (hint_ok_mono _ low); [lia|]. apply (hint_ok_begin _ A); [exact E|exact HA].
    - rewrite <- app_assoc. exact E.
    - exact HAB.
    - exact HC. }
  rewrite Hl2. cbn [bind].
  destruct (m_begin (B ++ C)) as [lk|] eqn:Ebeg.
  - (* lowItr is not end() *)
    destruct (ensure_high_spec (A ++ B) C (m_begin C) high) as [h1 He].
    { rewrite <- app_assoc. exact Hs0. }
    { exact HAB. }
    { exact HC. }
    rewrite <- !app_assoc in He. rewrite E. rewrite He. cbn [bind].
    fold (pi_C1 A B C high) in *.
    assert (SC1 : ksorted (pi_C1 A B C high) /\ kge high (pi_C1 A B C high)).
    { apply with_key_sorted; assumption. }
    destruct SC1 as [SC1 GC1].
    assert (GC1' : kge (low + 1) (pi_C1 A B C high)). { eapply kge_weaken; [|exact GC1]. lia. }
    assert (S1 : ksorted (A ++ B ++ pi_C1 A B C high)).
    { rewrite app_assoc. apply (ksorted_glue high); try assumption.
      apply ksorted_app. split; [exact SA|]. split; [exact SB|].
      intros a b Ha Hb. apply HABC; [exact Ha|]. apply in_or_app. left. exact Hb. }
    assert (Hsplit : exists h2, split_low ops low (Some lk) (mk_bo (A ++ B ++ pi_C1 A B C high) h1)
              = Some (Some low, mk_bo (A ++ pi_B1 A B low ++ pi_C1 A B C high) h2)).
    { unfold pi_B1. rewrite <- with_key_app by exact GC1'.
      assert (Hcase : Some lk = m_begin (B ++ pi_C1 A B C high) \/
                (B = [] /\ exists k v C', C = (k, v) :: C' /\ pi_C1 A B C high = (high, lastval null A) :: C /\ lk = k)).
      { destruct B as [|[b vb] B].
        - destruct C as [|[k v] C]; cbn [app m_begin] in Ebeg; [discriminate Ebeg|].
          injection Ebeg as Ebeg. unfold pi_C1. cbn [with_key app].
          destruct (Z.eqb_spec k high) as [Ek|Ek].
          + left. cbn [m_begin]. congruence.
          + right. split; [reflexivity|]. exists k, v, C. rewrite app_nil_r.
            repeat split. symmetry. exact Ebeg.
        - left. cbn [app m_begin] in *. symmetry. exact Ebeg. }
      destruct Hcase as [Hcase|[EB [k [v [C' [EC [EC1 Ek]]]]]]].
      - rewrite Hcase. apply split_low_spec.
        + exact S1.
        + exact HA.
        + apply kge_app. split; [exact HB1|]. eapply kge_weaken; [|exact GC1']. lia.
        + intros Hn. destruct (with_key_cons high (lastval null (A ++ B)) C) as [v [C' Ew]].
          fold (pi_C1 A B C high) in Ew. rewrite Ew in Hn. destruct B; discriminate Hn.
      - rewrite EC1 in *. subst B. cbn [app] in *.
        replace (Some lk) with (m_begin C) by (rewrite EC; cbn [m_begin]; congruence).
        destruct (split_low_after_high A C h1 low high (lastval null A) S1 HA Hlh) as [h2 Hsp].
        + rewrite EC. discriminate.
        + reflexivity.
        + exists h2. rewrite Hsp. cbn [with_key].
          destruct (Z.eqb_spec high low) as [E1|E1]; [lia|]. reflexivity. }
    destruct Hsplit as [h2 Hsplit]. rewrite Hsplit. cbn [bind].
    destruct (with_key_cons high (lastval null (A ++ B)) C) as [vh [C' EC1]].
    fold (pi_C1 A B C high) in EC1.
    destruct (with_key_cons low (lastval null A) B) as [vl [B' EB1]].
    fold (pi_B1 A B low) in EB1.
    assert (SB1 : ksorted (pi_B1 A B low) /\ kge low (pi_B1 A B low)).
    { apply with_key_sorted; assumption. }
    destruct SB1 as [SB1 GB1].
    assert (LB1 : klt high (pi_B1 A B low)). { apply with_key_klt; assumption. }
    assert (S2 : ksorted (A ++ pi_B1 A B low ++ pi_C1 A B C high)).
    { apply (ksorted_glue low); try assumption.
      - apply (ksorted_glue high); assumption.
      - apply kge_app. split; [exact GB1|]. eapply kge_weaken; [|exact GC1']. lia. }
    cbn [scanData].
    pose proof (interval_loop_spec (pi_B1 A B low) A high vh C' delta []
      (S (length (A ++ pi_B1 A B low ++ pi_C1 A B C high)))) as Hloop.
    rewrite <- EC1 in Hloop. specialize (Hloop S2).
    assert (Hbl : m_begin (pi_B1 A B low ++ pi_C1 A B C high) = Some low).
    { rewrite EB1. reflexivity. }
    rewrite Hbl in Hloop. rewrite Hloop by (rewrite !app_length; lia).
    cbn [bind app].
    assert (S3 : ksorted (A ++ add_all delta (pi_B1 A B low) ++ pi_C1 A B C high)).
    { apply (ksorted_glue low); try assumption.
      - apply (ksorted_glue high); try assumption.
        + apply add_all_sorted. exact SB1.
        + apply add_all_klt. exact LB1.
      - apply kge_app. split; [apply add_all_kge; exact GB1|]. eapply kge_weaken; [|exact GC1']. lia. }
    assert (Hml : merge_low ops (Some low) (A ++ add_all delta (pi_B1 A B low) ++ pi_C1 A B C high)
       = Some (A ++ pi_B2 A B low delta ++ pi_C1 A B C high)).
    { unfold pi_B2. rewrite EB1 in *. cbn [add_all map fst snd app] in *.
      rewrite merge_low_spec by exact S3. rewrite app_comm_cons. rewrite drop_low_app. reflexivity. }
    rewrite Hml. cbn [bind].
    assert (S4 : ksorted ((A ++ pi_B2 A B low delta) ++ pi_C1 A B C high)).
    { rewrite <- app_assoc. unfold pi_B2. rewrite EB1 in *. cbn [add_all map fst snd app] in *.
      rewrite <- drop_low_app. apply ksorted_drop. exact S3. }
    assert (Hne : A ++ pi_B2 A B low delta <> []).
    { unfold pi_B2. rewrite EB1. cbn [add_all map fst snd]. apply drop_low_nonempty. }
    rewrite app_assoc. rewrite EC1 in *.
    rewrite (merge_high_spec _ _ _ _ S4 Hne). cbn [bind].
    unfold pi_C2. rewrite EC1. rewrite <- app_assoc. reflexivity.
  - (* all keys are below low *)
    assert (HB : B = [] /\ C = []).
    { destruct B as [|[b vb] B]; [|discriminate Ebeg]. destruct C as [|[c vc0] C]; [|discriminate Ebeg].
      split; reflexivity. }
    destruct HB as [EB EC]. subst B C. cbn [app] in *. rewrite app_nil_r in *.
    unfold insert_. cbn [nextItr scanData m_begin m_valid bind]. rewrite E.
    pose proof (m_insert_mid low delta A [] HA) as Hi1. rewrite app_nil_r in Hi1.
    rewrite Hi1 by constructor.
    rewrite (m_find_mid low delta A [] HA). cbn [bind].
    pose proof (m_insert_mid high null (A ++ [(low, delta)]) []) as Hi2. rewrite app_nil_r in Hi2.
    rewrite Hi2; [|apply klt_app; split; [exact HAB|apply klt_cons; split; [exact Hlh|constructor]]|constructor].
    rewrite E in Hlast.
    assert (Hneq : t_eqb ops null delta = false).
    { destruct (t_eqb ops null delta) eqn:Eq; [|reflexivity]. apply (cl_eqb ops L) in Eq. congruence. }
    assert (Hneq2 : t_eqb ops delta null = false).
    { destruct (t_eqb ops delta null) eqn:Eq; [|reflexivity]. apply (cl_eqb ops L) in Eq. congruence. }
    assert (EB2 : pi_B2 A [] low delta = [(low, delta)]).
    { unfold pi_B2, pi_B1. cbn [with_key add_all map fst snd]. rewrite Hlast, (cl_null ops L).
      destruct A as [|p A]; cbn [drop_low]; [reflexivity|].
      replace (lastval null (p :: A)) with null by (symmetry; exact Hlast). rewrite Hneq. reflexivity. }
    assert (EC2 : pi_C2 A [] [] low high delta = [(high, null)]).
    { unfold pi_C2, pi_C1. cbn [with_key]. rewrite EB2. rewrite app_nil_r, Hlast.
      destruct (A ++ [(low, delta)]) as [|p R] eqn:ER; cbn [drop_low]; [reflexivity|].
      rewrite <- ER, lastval_snoc, Hneq2. reflexivity. }
    rewrite EB2, EC2. unfold pi_B1. cbn [with_key outs m_begin app]. rewrite Hlast, (cl_null ops L).
    rewrite <- app_assoc. cbn [app]. rewrite app_nil_r. reflexivity.
Qed.
End Process.
