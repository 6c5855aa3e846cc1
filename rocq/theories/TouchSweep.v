(* performTouch: the sweep over the leading and trailing edges. *)
From Verif Require Import Base Scan90Spec BoolOpModel VertexLemmas ScanMap ScanProcess ScanStep Set90Spec Set90Model
  Set90Lemmas TouchSpec TouchModel TouchStep TouchEvent TouchPop.

Section Sweep.
Variable c : Z -> Z -> Z -> bool.   (* id, x, y: the cells of each region *)
Variable N : Z.
Definition ldg (i x y : Z) : bool := c i x y && negb (c i (x - 1) y).
Definition trl (i x y : Z) : bool := c i (x - 1) y && negb (c i x y).
Hypothesis Hid : forall i x y, c i x y = true -> 0 <= i < N.
Hypothesis Hbd : exists M, forall i x y, x < - M \/ M < x -> c i x y = false.

(* an edge made at column x *)
Definition linkAt (x a b : Z) : Prop :=
  exists p q y t, ldg p x y = true /\ near y t /\ (c q (x - 1) t = true \/ c q x t = true) /\ pr a b p q.

Definition inv (X : Z) (b : bool) (L R : smap event) (s : bo_state idset) : Prop :=
  tok L /\ tok R /\
  (forall i x y, on L i x y = ((X <? x) || ((X =? x) && negb b)) && ldg i x y) /\
  (forall i x y, on R i x y = (X <=? x) && trl i x y) /\
  (forall i y, In i (tval s y) <-> c i (X - 1) y = true \/ (b = true /\ c i X y = true)) /\
  (exists q, scan_ok id_ops s q).

Lemma skip_lead X L R s : inv X false L R s -> ~ In X (map fst L) -> inv X true L R s.
Proof.
  intros [T1 [T2 [HL [HR [HV Hq]]]]] Hk.
  assert (Hno : forall i y, ldg i X y = false).
  { intros i y. pose proof (HL i X y) as H. rewrite Z.eqb_refl, Z.ltb_irrefl in H. cbn [orb andb negb] in H.
    rewrite <- H. destruct (on L i X y) eqn:E; [|reflexivity]. contradiction Hk. eapply on_key; exact E. }
  split; [exact T1|]. split; [exact T2|]. split; [|split; [exact HR|split; [|exact Hq]]].
  - intros i x y. rewrite HL. destruct (Z.eqb_spec X x) as [E|E]; [|reflexivity]. subst x. rewrite Hno, !andb_false_r. reflexivity.
  - intros i y. rewrite HV. split; [intros [H|[H _]]; [left; exact H|discriminate H]|].
    intros [H|[_ H]]; [left; exact H|]. left. specialize (Hno i y). unfold ldg in Hno. rewrite H in Hno. cbn [andb] in Hno.
    destruct (c i (X - 1) y); [reflexivity|discriminate Hno].
Qed.
Lemma skip_trail X L R s : inv X true L R s -> ~ In X (map fst R) -> inv (X + 1) false L R s.
Proof.
  intros [T1 [T2 [HL [HR [HV Hq]]]]] Hk.
  assert (Hno : forall i y, trl i X y = false).
  { intros i y. pose proof (HR i X y) as H. rewrite Z.leb_refl in H. cbn [andb] in H.
    rewrite <- H. destruct (on R i X y) eqn:E; [|reflexivity]. contradiction Hk. eapply on_key; exact E. }
  split; [exact T1|]. split; [exact T2|]. split; [|split; [|split; [|exact Hq]]].
  - intros i x y. rewrite HL. cbn [negb]. rewrite andb_false_r, andb_true_r, orb_false_r.
    f_equal. destruct (Z.ltb_spec X x), (Z.ltb_spec (X + 1) x), (Z.eqb_spec (X + 1) x); (reflexivity || lia).
  - intros i x y. rewrite HR. destruct (Z.leb_spec X x), (Z.leb_spec (X + 1) x); try lia; try reflexivity.
    replace x with X by lia. apply Hno.
  - intros i y. rewrite HV. replace (X + 1 - 1) with X by lia. specialize (Hno i y). unfold trl in Hno. split.
    + intros [H|[_ H]]; [|left; exact H]. left. rewrite H in Hno. destruct (c i X y); [reflexivity|discriminate Hno].
    + intros [H|[H _]]; [right; split; [reflexivity|exact H]|discriminate H].
Qed.

Lemma skip_to (n : nat) : forall X b X' b' L R s, inv X b L R s ->
  2 * X' + b2z b' = 2 * X + b2z b + Z.of_nat n ->
  (forall k, In k (map fst L) -> 2 * X' + b2z b' <= 2 * k) ->
  (forall k, In k (map fst R) -> 2 * X' + b2z b' <= 2 * k + 1) -> inv X' b' L R s.
Proof.
  induction n as [|n IH]; intros X b X' b' L R s H E HL HR.
  - assert (X' = X /\ b' = b) as [-> ->].
    { destruct b, b'; cbn [b2z] in E; split; try reflexivity; lia. }
    exact H.
  - destruct b; cbn [b2z] in E.
    + apply (IH (X + 1) false); [|cbn [b2z]; lia|exact HL|exact HR].
      apply skip_trail; [exact H|]. intros Hi. apply HR in Hi. lia.
    + apply (IH X true); [|cbn [b2z]; lia|exact HL|exact HR].
      apply skip_lead; [exact H|]. intros Hi. apply HL in Hi. lia.
Qed.

Lemma inv_keys_L X b L R s k : inv X b L R s -> In k (map fst L) -> 2 * X + b2z b <= 2 * k.
Proof.
  intros [T1 [_ [HL _]]] Hk. destruct (tok_key L k T1 Hk) as [i [y H]]. rewrite HL in H.
  apply andb_prop in H. destruct H as [H _]. apply orb_prop in H. destruct b; cbn [b2z negb] in *; lia.
Qed.
Lemma inv_keys_R X b L R s k : inv X b L R s -> In k (map fst R) -> X <= k.
Proof.
  intros [_ [T2 [_ [HR _]]]] Hk. destruct (tok_key R k T2 Hk) as [i [y H]]. rewrite HR in H.
  apply andb_prop in H. lia.
Qed.

Lemma tok_tail k e m : tok ((k, e) :: m) -> tok m /\ ev_ok e /\ kge (k + 1) m.
Proof.
  intros [H1 H2]. apply ksorted_cons in H1. inversion H2 as [|p l H3 H4]; subst. cbn [snd] in H3.
  split; [split; [apply H1|exact H4]|]. split; [apply H3|apply H1].
Qed.
Lemma on_tail k e m i x y : kge (k + 1) m -> on m i x y = negb (x =? k) && on ((k, e) :: m) i x y.
Proof.
  intros H. unfold on. cbn [evat]. rewrite (Z.eqb_sym k x). destruct (Z.eqb_spec x k) as [->|Hx]; cbn [negb andb].
  - rewrite (evat_kge m k H). reflexivity.
  - reflexivity.
Qed.

Lemma inv_valid X b L R s g : inv X b L R s -> (forall i, 0 <= i < N -> gvalid g i) ->
  forall y, Forall (gvalid g) (tval s y).
Proof.
  intros [_ [_ [_ [_ [HV _]]]]] Hg y. apply Forall_forall. intros i Hi. apply Hg. apply HV in Hi.
  destruct Hi as [Hi|[_ Hi]]; eapply Hid; exact Hi.
Qed.

Lemma lead_step X e L R s g : inv X false ((X, e) :: L) R s -> (forall i, 0 <= i < N -> gvalid g i) ->
  exists s' g', processEvent e true (advanceScan s) g = Some (s', g') /\ inv X true L R s' /\ adds g g' (linkAt X).
Proof.
  intros H Hg. pose proof (inv_valid _ _ _ _ _ _ H Hg) as Hval.
  destruct H as [T1 [T2 [HL [HR [HV [q Hq]]]]]].
  destruct (tok_tail _ _ _ T1) as [T1' [He Hk]].
  assert (Hact : forall i y, act i e y = ldg i X y).
  { intros i y. pose proof (HL i X y) as H. unfold on in H. cbn [evat] in H. rewrite Z.eqb_refl, Z.ltb_irrefl in H. exact H. }
  destruct (processEvent_spec e true (advanceScan s) g He) as [s' [g' [q' [E [S' [V' A']]]]]].
  - intros p. eapply scan_ok_advance. exact Hq.
  - intros i y Hi. apply Hg. rewrite Hact in Hi. unfold ldg in Hi. apply andb_prop in Hi. eapply Hid. apply Hi.
  - exact Hval.
  - intros y i Hi Hin. change (tval (advanceScan s) y) with (tval s y) in Hin.
    apply HV in Hin. rewrite Hact in Hi. unfold ldg in Hi. destruct Hin as [Hin|[Hin _]]; [|discriminate Hin].
    rewrite Hin, andb_false_r in Hi. discriminate Hi.
  - exists s', g'. split; [exact E|]. split.
    + split; [exact T1'|]. split; [exact T2|]. split; [|split; [exact HR|split; [|exists q'; exact S']]].
      * intros i x y. rewrite (on_tail X e L) by exact Hk. rewrite HL. cbn [negb].
        destruct (Z.eqb_spec x X), (Z.eqb_spec X x), (Z.ltb_spec X x); try lia; cbn [negb orb andb]; reflexivity.
      * intros i y. rewrite V'. rewrite Hact. unfold ldg. change (tval (advanceScan s) y) with (tval s y). generalize (HV i y).
        destruct (c i (X - 1) y), (c i X y); cbn [andb negb]; intuition congruence.
    + eapply adds_iff; [|exact A']. intros a b. cbn beta. unfold linkAt. split.
      * intros [_ [p [j [y [t [Hc [Hn [Hj Hp]]]]]]]]. rewrite Hact in Hc. exists p, j, y, t. conj.
        destruct Hj as [Hj|Hj].
        -- apply HV in Hj. destruct Hj as [Hj|[Hj _]]; [left; exact Hj|discriminate Hj].
        -- rewrite Hact in Hj. unfold ldg in Hj. apply andb_prop in Hj. right. apply Hj.
      * intros [p [j [y [t [Hc [Hn [Hj Hp]]]]]]]. split; [reflexivity|]. exists p, j, y, t. rewrite !Hact. conj.
        destruct Hj as [Hj|Hj]; [left; apply HV; left; exact Hj|].
        unfold ldg. destruct (c j (X - 1) t) eqn:E1; [left; apply HV; left; exact E1|].
        right. rewrite Hj. reflexivity.
Qed.

Lemma trail_step X e L R s g : inv X true L ((X, e) :: R) s -> (forall i, 0 <= i < N -> gvalid g i) ->
  exists s' g', processEvent e false (advanceScan s) g = Some (s', g') /\ inv (X + 1) false L R s' /\
    adds g g' (fun _ _ => False).
Proof.
  intros H Hg. pose proof (inv_valid _ _ _ _ _ _ H Hg) as Hval.
  destruct H as [T1 [T2 [HL [HR [HV [q Hq]]]]]].
  destruct (tok_tail _ _ _ T2) as [T2' [He Hk]].
  assert (Hact : forall i y, act i e y = trl i X y).
  { intros i y. pose proof (HR i X y) as H. unfold on in H. cbn [evat] in H. rewrite Z.eqb_refl, Z.leb_refl in H. exact H. }
  destruct (processEvent_spec e false (advanceScan s) g He) as [s' [g' [q' [E [S' [V' A']]]]]].
  - intros p. eapply scan_ok_advance. exact Hq.
  - intros i y Hi. apply Hg. rewrite Hact in Hi. unfold trl in Hi. apply andb_prop in Hi. eapply Hid. apply Hi.
  - exact Hval.
  - intros y i Hi. change (tval (advanceScan s) y) with (tval s y).
    apply HV. rewrite Hact in Hi. unfold trl in Hi. apply andb_prop in Hi. left. apply Hi.
  - exists s', g'. split; [exact E|]. split.
    + split; [exact T1|]. split; [exact T2'|]. split; [|split; [|split; [|exists q'; exact S']]].
      * intros i x y. rewrite HL. cbn [negb]. rewrite andb_false_r, andb_true_r, orb_false_r. f_equal.
        destruct (Z.ltb_spec X x), (Z.ltb_spec (X + 1) x), (Z.eqb_spec (X + 1) x); (reflexivity || lia).
      * intros i x y. rewrite (on_tail X e R) by exact Hk. rewrite HR.
        destruct (Z.eqb_spec x X), (Z.leb_spec X x), (Z.leb_spec (X + 1) x); try lia; cbn [negb andb]; reflexivity.
      * intros i y. rewrite V'. rewrite Hact. unfold trl. change (tval (advanceScan s) y) with (tval s y). generalize (HV i y).
        replace (X + 1 - 1) with X by lia.
        destruct (c i (X - 1) y), (c i X y); cbn [andb negb]; intuition congruence.
    + eapply adds_iff; [|exact A']. intros a b. cbn beta. split; [intros [H _]; discriminate H|intros []].
Qed.

(* a region that starts ends later *)
Lemma ends i x y : c i x y = true -> exists x', x < x' /\ trl i x' y = true.
Proof.
  intros H. destruct Hbd as [M HM].
  assert (G : forall n : nat, forall x, M <= x + Z.of_nat n -> c i x y = true -> exists x', x < x' /\ trl i x' y = true).
  { induction n as [|n IH]; intros x0 Hx H0.
    - exists (x0 + 1). split; [lia|]. unfold trl. replace (x0 + 1 - 1) with x0 by lia. rewrite H0, HM by lia. reflexivity.
    - destruct (c i (x0 + 1) y) eqn:E.
      + destruct (IH (x0 + 1) ltac:(lia) E) as [x' [Hx' Ht]]. exists x'. split; [lia|exact Ht].
      + exists (x0 + 1). split; [lia|]. unfold trl. replace (x0 + 1 - 1) with x0 by lia. rewrite H0, E. reflexivity. }
  apply (G (Z.to_nat (M - x))); [lia|exact H].
Qed.

Lemma kge_In k k' (e : event) (m : smap event) : kge (k + 1) m -> In k' (map fst ((k, e) :: m)) -> k <= k'.
Proof.
  intros Hk [H|H]; [cbn [fst] in H; lia|]. apply (proj1 (keys_kge' _ _) Hk) in H. lia.
Qed.

Lemma touch_events_spec fuel : forall X b L R s g,
  inv X b L R s -> (length L + length R <= fuel)%nat -> (forall i, 0 <= i < N -> gvalid g i) ->
  exists g', touch_events fuel L R s g = Some g' /\
    adds g g' (fun p q => exists x, 2 * X + b2z b <= 2 * x /\ linkAt x p q).
Proof.
  induction fuel as [|fuel IH]; intros X b L R s g H Hf Hg.
  - destruct L as [|pl L], R as [|pr R]; cbn [length] in Hf; try lia. cbn [touch_events].
    exists g. split; [reflexivity|]. apply adds_none. intros p q [x [Hx [p' [q' [y [t [Hl _]]]]]]].
    destruct H as [_ [_ [HL _]]]. specialize (HL p' x y). rewrite Hl in HL. unfold on in HL. cbn [evat act] in HL.
    destruct (Z.ltb_spec X x), (Z.eqb_spec X x), b; cbn [b2z orb andb negb] in *; try discriminate HL; lia.
  - destruct L as [|[xl el] L].
    + (* no leading edges left *)
      assert (Hnone : forall x p q, 2 * X + b2z b <= 2 * x -> linkAt x p q -> False).
      { intros x p q Hx [p' [q' [y [t [Hl _]]]]]. destruct H as [_ [_ [HL _]]]. specialize (HL p' x y).
        rewrite Hl in HL. unfold on in HL. cbn [evat act] in HL.
        destruct (Z.ltb_spec X x), (Z.eqb_spec X x), b; cbn [b2z orb andb negb] in *; try discriminate HL; lia. }
      destruct R as [|[xr er] R]; cbn [touch_events].
      * exists g. split; [reflexivity|]. apply adds_none. intros p q [x [Hx Hl]]. apply (Hnone x p q Hx Hl).
      * pose proof (inv_keys_R _ _ _ _ _ xr H (or_introl eq_refl)) as Hxr.
        assert (Hkr : kge (xr + 1) R) by (destruct H as [_ [T2 _]]; apply (tok_tail _ _ _ T2)).
        assert (H' : inv xr true [] ((xr, er) :: R) s).
        { apply (skip_to (Z.to_nat (2 * xr + 1 - (2 * X + b2z b))) X b); [exact H| | |].
          - destruct b; cbn [b2z] in *; lia.
          - intros k [].
          - intros k Hk. apply (kge_In xr k er R) in Hk; [cbn [b2z]; lia|exact Hkr]. }
        destruct (trail_step _ _ _ _ _ g H' Hg) as [s1 [g1 [E1 [I1 A1]]]]. rewrite E1. cbn [bind].
        destruct (IH _ _ _ _ _ g1 I1) as [g2 [E2 A2]].
        { cbn [length] in Hf |- *. lia. }
        { intros i Hi. eapply adds_valid; [exact A1|]. apply Hg. exact Hi. }
        exists g2. split; [exact E2|]. eapply adds_trans; [exact A1|exact A2|]. intros p q. cbn beta. split.
        -- intros [x [Hx Hl]]. contradiction (Hnone x p q Hx Hl).
        -- intros [[]|[x [Hx Hl]]]. exists x. split; [|exact Hl]. destruct b; cbn [b2z] in *; lia.
    + destruct R as [|[xr er] R]; cbn [touch_events].
      * exfalso. destruct H as [T1 [_ [HL [HR _]]]].
        destruct (tok_key _ xl T1 (or_introl eq_refl)) as [i [y Ho]]. rewrite HL in Ho.
        apply andb_prop in Ho. destruct Ho as [Ho1 Ho2]. unfold ldg in Ho2. apply andb_prop in Ho2.
        destruct (ends i xl y (proj1 Ho2)) as [x' [Hx' Ht]]. specialize (HR i x' y). rewrite Ht in HR.
        unfold on in HR. cbn [evat act] in HR. destruct (Z.leb_spec X x'); [discriminate HR|]. lia.
      * pose proof (inv_keys_R _ _ _ _ _ xr H (or_introl eq_refl)) as Hxr.
        pose proof (inv_keys_L _ _ _ _ _ xl H (or_introl eq_refl)) as Hxl.
        assert (Hkr : kge (xr + 1) R) by (destruct H as [_ [T2 _]]; apply (tok_tail _ _ _ T2)).
        assert (Hkl : kge (xl + 1) L) by (destruct H as [T1 _]; apply (tok_tail _ _ _ T1)).
        assert (Hlk : forall x p q, 2 * X + b2z b <= 2 * x -> linkAt x p q -> xl <= x).
        { intros x p q Hx [p' [q' [y [t [Hl _]]]]]. destruct H as [_ [_ [HL _]]]. specialize (HL p' x y).
          rewrite Hl, andb_true_r in HL. replace ((X <? x) || (X =? x) && negb b) with true in HL.
          - apply on_key in HL. apply (kge_In xl x el L); assumption.
          - symmetry. destruct (Z.ltb_spec X x), (Z.eqb_spec X x), b; cbn [b2z orb andb negb] in *; try reflexivity; lia. }
        destruct (Z.leb_spec xl xr) as [Hlr|Hlr].
        -- assert (H' : inv xl false ((xl, el) :: L) ((xr, er) :: R) s).
           { apply (skip_to (Z.to_nat (2 * xl - (2 * X + b2z b))) X b); [exact H| | |].
             - destruct b; cbn [b2z] in *; lia.
             - intros k Hk. apply (kge_In xl k el L) in Hk; [cbn [b2z]; lia|exact Hkl].
             - intros k Hk. apply (kge_In xr k er R) in Hk; [cbn [b2z]; lia|exact Hkr]. }
           destruct (lead_step _ _ _ _ _ g H' Hg) as [s1 [g1 [E1 [I1 A1]]]]. rewrite E1. cbn [bind].
           destruct (IH _ _ _ _ _ g1 I1) as [g2 [E2 A2]].
           { cbn [length] in Hf |- *. lia. }
           { intros i Hi. eapply adds_valid; [exact A1|]. apply Hg. exact Hi. }
           exists g2. split; [exact E2|]. eapply adds_trans; [exact A1|exact A2|]. intros p q. cbn beta. split.
           ++ intros [x [Hx Hl]]. pose proof (Hlk x p q Hx Hl) as Hx'.
              destruct (Z.eqb_spec x xl) as [->|Hne]; [left; exact Hl|right]. exists x. split; [cbn [b2z]; lia|exact Hl].
           ++ intros [Hl|[x [Hx Hl]]]; [exists xl; split; [exact Hxl|exact Hl]|]. exists x. split; [|exact Hl].
              cbn [b2z] in Hx. lia.
        -- assert (H' : inv xr true ((xl, el) :: L) ((xr, er) :: R) s).
           { apply (skip_to (Z.to_nat (2 * xr + 1 - (2 * X + b2z b))) X b); [exact H| | |].
             - destruct b; cbn [b2z] in *; lia.
             - intros k Hk. apply (kge_In xl k el L) in Hk; [cbn [b2z]; lia|exact Hkl].
             - intros k Hk. apply (kge_In xr k er R) in Hk; [cbn [b2z]; lia|exact Hkr]. }
           destruct (trail_step _ _ _ _ _ g H' Hg) as [s1 [g1 [E1 [I1 A1]]]]. rewrite E1. cbn [bind].
           destruct (IH _ _ _ _ _ g1 I1) as [g2 [E2 A2]].
           { cbn [length] in Hf |- *. lia. }
           { intros i Hi. eapply adds_valid; [exact A1|]. apply Hg. exact Hi. }
           exists g2. split; [exact E2|]. eapply adds_trans; [exact A1|exact A2|]. intros p q. cbn beta. split.
           ++ intros [x [Hx Hl]]. pose proof (Hlk x p q Hx Hl) as Hx'. right. exists x. split; [cbn [b2z]; lia|exact Hl].
           ++ intros [[]|[x [Hx Hl]]]. exists x. split; [|exact Hl]. destruct b; cbn [b2z] in *; lia.
Qed.

(* ---------- which pairs are linked ---------- *)
Definition touching (a b : Z) : Prop :=
  exists x y x' y', c a x y = true /\ c b x' y' = true /\ near x x' /\ near y y'.
Lemma touching_sym a b : touching a b -> touching b a.
Proof.
  intros [x [y [x' [y' [H1 [H2 [H3 H4]]]]]]]. exists x', y', x, y. conj; unfold near in *; lia.
Qed.

Lemma linked_same_column a b : a <> b -> forall x y y', c a x y = true -> c b x y' = true -> near y y' -> exists x0, linkAt x0 a b.
Proof.
  intros Hab. destruct Hbd as [M HM].
  assert (G : forall n : nat, forall x y y', x + M <= Z.of_nat n -> c a x y = true -> c b x y' = true -> near y y' ->
            exists x0, linkAt x0 a b).
  { induction n as [|n IH]; intros x y y' Hx Ha Hb Hn.
    - assert (Hx' : - M <= x). { destruct (Z.ltb_spec x (- M)) as [Hl|Hl]; [|exact Hl]. rewrite HM in Ha by lia. discriminate Ha. }
      exists x. exists a, b, y, y'. conj.
      + unfold ldg. rewrite Ha, HM by lia. reflexivity.
      + right. exact Hb.
      + unfold pr. tauto.
    - destruct (c a (x - 1) y) eqn:Ea.
      + destruct (c b (x - 1) y') eqn:Eb.
        * apply (IH (x - 1) y y'); try assumption. lia.
        * exists x. exists b, a, y', y. conj.
          -- unfold ldg. rewrite Hb, Eb. reflexivity.
          -- unfold near in *. lia.
          -- right. exact Ha.
          -- unfold pr. intuition congruence.
      + exists x. exists a, b, y, y'. conj.
        * unfold ldg. rewrite Ha, Ea. reflexivity.
        * right. exact Hb.
        * unfold pr. tauto. }
  intros x y y'. apply (G (Z.to_nat (x + M))). lia.
Qed.

Lemma linked_iff a b : (exists x, linkAt x a b) <-> a <> b /\ touching a b.
Proof.
  split.
  - intros [x [p [q [y [t [Hl [Hn [Hc Hp]]]]]]]]. unfold ldg in Hl. apply andb_prop in Hl. destruct Hl as [Hl _].
    assert (Ht : touching p q).
    { destruct Hc as [Hc|Hc]; [exists x, y, (x - 1), t|exists x, y, x, t]; conj; unfold near in *; lia. }
    unfold pr in Hp. destruct Hp as [Hpq [[-> ->]|[-> ->]]]; (split; [congruence|]); [exact Ht|apply touching_sym; exact Ht].
  - intros [Hab [x [y [x' [y' [Ha [Hb [Hx Hy]]]]]]]].
    assert (Hcase : x' = x \/ x' = x - 1 \/ x' = x + 1) by (unfold near in Hx; lia).
    destruct Hcase as [->|[->| ->]].
    + eapply linked_same_column; eassumption.
    + destruct (c a (x - 1) y) eqn:Ea; [eapply linked_same_column; eassumption|].
      exists x. exists a, b, y, y'. conj; [unfold ldg; rewrite Ha, Ea; reflexivity|left; exact Hb|unfold pr; tauto].
    + destruct (c b x y') eqn:Eb; [eapply linked_same_column; eassumption|].
      exists (x + 1). exists b, a, y', y. replace (x + 1 - 1) with x by lia. conj.
      * unfold ldg. replace (x + 1 - 1) with x by lia. rewrite Hb, Eb. reflexivity.
      * unfold near in *. lia.
      * left. exact Ha.
      * unfold pr. intuition congruence.
Qed.

Theorem performTouch_spec d g : tok (fst d) -> tok (snd d) ->
  (forall i x y, on (fst d) i x y = ldg i x y) -> (forall i x y, on (snd d) i x y = trl i x y) ->
  (forall i, 0 <= i < N -> gvalid g i) ->
  exists g', performTouch d g = Some g' /\ adds g g' (fun a b => a <> b /\ touching a b).
Proof.
  intros T1 T2 HL HR Hg. destruct Hbd as [M HM].
  assert (H0 : inv (- M - 2) false (fst d) (snd d) bo_init).
  { split; [exact T1|]. split; [exact T2|]. split; [|split; [|split]].
    - intros i x y. rewrite HL. destruct (Z.ltb_spec (- M - 2) x), (Z.eqb_spec (- M - 2) x); cbn [orb andb negb]; try reflexivity.
      unfold ldg. rewrite HM by lia. reflexivity.
    - intros i x y. rewrite HR. destruct (Z.leb_spec (- M - 2) x); cbn [andb]; [reflexivity|]. unfold trl. rewrite HM by lia. reflexivity.
    - intros i y. split; [intros []|]. intros [H|[H _]]; [|discriminate H]. rewrite HM in H by lia. discriminate H.
    - exists 0. apply scan_ok_init. }
  destruct (touch_events_spec (length (fst d) + length (snd d)) _ _ _ _ _ g H0 (Nat.le_refl _) Hg) as [g' [E A]].
  exists g'. split; [exact E|]. eapply adds_iff; [|exact A]. intros a b. cbn beta. rewrite <- linked_iff. split.
  - intros [x [_ H]]. exists x. exact H.
  - intros [x H]. exists x. split; [|exact H]. destruct H as [p [q [y [t [Hl _]]]]]. unfold ldg in Hl. cbn [b2z].
    destruct (Z.ltb_spec x (- M)) as [Hx|Hx]; [|lia]. rewrite HM in Hl by lia. discriminate Hl.
Qed.
End Sweep.
