(* computeDag finds exactly the pairs of nodes that share part of an edge. *)
From Coq Require Import Permutation.
From Verif Require Import Base Scan90Spec Set90Spec Set90Model GeoSpec IvlModel RectFormModel MaxCoverModel.

Definition sr_ne (r : srect) : Prop := s_lo r < s_hi r /\ s_ml r < s_mh r.
(* the order of the trailing edges *)
Definition t_lt (a b : srect) : Prop := s_mh a < s_mh b \/ (s_mh a = s_mh b /\ s_hi a <= s_lo b).
Definition l_lt (a b : srect) : Prop := s_ml a < s_ml b \/ (s_ml a = s_ml b /\ s_hi a <= s_lo b).
(* a continues b *)
Definition pc (b a : srect) : Prop := s_ml a = s_mh b /\ s_lo a < s_hi b /\ s_lo b < s_hi a.

Record nodes_ok (ns : list srect) : Prop := {
  no_ne : forall i a, nth_error ns i = Some a -> sr_ne a;
  no_t : forall i j a b, (i < j)%nat -> nth_error ns i = Some a -> nth_error ns j = Some b -> t_lt a b;
  no_l : forall i j a b, i <> j -> nth_error ns i = Some a -> nth_error ns j = Some b -> l_lt a b \/ l_lt b a }.

Definition dag_rel (ns : list srect) (t l : nat) : Prop :=
  exists a b, nth_error ns l = Some a /\ nth_error ns t = Some b /\ pc b a.

Section Dag.
Variable ns : list srect.
Hypothesis OK : nodes_ok ns.

Record lead_inv (lead : list nat) (t : nat) : Prop := {
  li_in : forall l, In l lead -> exists a, nth_error ns l = Some a;
  li_sorted : ForallOrdPairs (fun i j => forall a b, nth_error ns i = Some a -> nth_error ns j = Some b -> l_lt a b) lead;
  li_room : forall l a, In l lead -> nth_error ns l = Some a -> exists k b, (t <= k)%nat /\ nth_error ns k = Some b /\ s_ml a < s_mh b }.

Lemma li_tail l lead t : lead_inv (l :: lead) t -> lead_inv lead t.
Proof.
  intros [H1 H2 H3]. constructor.
  - intros k Hk. apply H1. right; exact Hk.
  - inversion H2; assumption.
  - intros k a Hk. apply H3. right; exact Hk.
Qed.
Lemma li_head_le l lead t k a c : lead_inv (l :: lead) t -> nth_error ns l = Some a -> In k (l :: lead) -> nth_error ns k = Some c ->
  k = l \/ l_lt a c.
Proof.
  intros [_ H2 _] Ea [->|Hk] Ec; [left; reflexivity|]. right. inversion H2 as [|? ? F _]; subst.
  rewrite Forall_forall in F. exact (F k Hk a c Ea Ec).
Qed.
Lemma li_next l lead t a b : lead_inv (l :: lead) t -> nth_error ns l = Some a -> nth_error ns t = Some b -> s_mh b <= s_ml a ->
  lead_inv (l :: lead) (S t).
Proof.
  intros I Ea Eb L. pose proof (li_room _ _ I) as H3. constructor; [exact (li_in _ _ I)|exact (li_sorted _ _ I)|].
  intros k c Hk Ec. destruct (H3 k c Hk Ec) as [j [d [Lj [Ed Ld]]]].
  exists j, d. split; [|split; assumption].
  assert (j <> t); [|lia]. intros ->. assert (d = b) by congruence. subst d.
  destruct (li_head_le l lead t k a c I Ea Hk Ec) as [->|Q]; [assert (c = a) by congruence; subst c; lia|].
  unfold l_lt in Q. lia.
Qed.

Lemma dag_loop_spec : forall fuel lead t edges, (length lead + (length ns - t) <= fuel)%nat -> lead_inv lead t ->
  exists new, dag_loop fuel ns lead t edges = Some (edges ++ new) /\
    forall p q, In (p, q) new <-> (t <= p)%nat /\ In q lead /\ dag_rel ns p q.
Proof.
  induction fuel as [|fuel IH]; intros lead t edges F I.
  - destruct lead; [|cbn [length] in F; lia]. exists []. rewrite app_nil_r. split; [reflexivity|]. cbn [In]. tauto.
  - destruct lead as [|l lead].
    { exists []. rewrite app_nil_r. split; [reflexivity|]. cbn [In]. tauto. }
    destruct (li_in _ _ I l (or_introl eq_refl)) as [a Ea].
    destruct (li_room _ _ I l a (or_introl eq_refl) Ea) as [k [kb [Lk [Ek Lm]]]].
    assert (Lt : (t < length ns)%nat).
    { assert (k < length ns)%nat by (apply nth_error_Some; congruence). lia. }
    destruct (nth_error ns t) as [b|] eqn:Eb; [|apply nth_error_None in Eb; lia].
    cbn [dag_loop]. rewrite Ea, Eb. cbn [bind].
    pose proof (no_ne ns OK l a Ea) as Na. pose proof (no_ne ns OK t b Eb) as Nb. unfold sr_ne in Na, Nb.
    (* no later trailing edge continues into l *)
    assert (SkipL : (s_ml a < s_mh b \/ (s_ml a = s_mh b /\ s_hi a <= s_hi b)) ->
              forall p, (t < p)%nat -> ~ dag_rel ns p l).
    { intros C p Lp [a' [b' [E1 [E2 [P1 [P2 P3]]]]]]. assert (a' = a) by congruence. subst a'.
      pose proof (no_t ns OK t p b b' Lp Eb E2) as T. unfold t_lt in T. lia. }
    (* the trailing edge t does not continue into a later leading edge *)
    assert (SkipT : (s_mh b < s_ml a \/ (s_ml a = s_mh b /\ s_hi b <= s_hi a)) ->
              forall q, In q lead -> ~ dag_rel ns t q).
    { intros C q Hq [a' [b' [E1 [E2 [P1 [P2 P3]]]]]]. assert (b' = b) by congruence. subst b'.
      pose proof (li_sorted _ _ I) as SL. inversion SL as [|? ? Fl _]; subst. rewrite Forall_forall in Fl.
      pose proof (Fl q Hq a a' Ea E1) as T. unfold l_lt in T. lia. }
    assert (Here : dag_rel ns t l <-> pc b a).
    { split; [intros [a' [b' [E1 [E2 P]]]]; assert (a' = a) by congruence; assert (b' = b) by congruence; subst; exact P|].
      intros P. exists a, b. tauto. }
    assert (AdvL : forall ed, (s_ml a < s_mh b \/ (s_ml a = s_mh b /\ s_hi a <= s_hi b)) ->
       exists new, dag_loop fuel ns lead t ed = Some (ed ++ new) /\
         forall p q, In (p, q) new \/ ((p, q) = (t, l) /\ pc b a) <-> (t <= p)%nat /\ In q (l :: lead) /\ dag_rel ns p q).
    { intros ed C. destruct (IH lead t ed) as [new [E H]]; [cbn [length] in F; lia|exact (li_tail _ _ _ I)|].
      exists new. split; [exact E|]. intros p q. rewrite H. split.
      - intros [[H1 [H2 H3]]|[K P]]; [split; [exact H1|split; [right; exact H2|exact H3]]|].
        assert (p = t) by congruence. assert (q = l) by congruence. subst p q.
        split; [lia|]. split; [left; reflexivity|apply Here, P].
      - intros [H1 [[<-|H2] H3]]; [|left; tauto].
        destruct (Nat.eq_dec p t) as [->|N]; [right; split; [reflexivity|apply Here, H3]|].
        exfalso. apply (SkipL C p); [lia|exact H3]. }
    assert (AdvT : forall ed, (s_mh b < s_ml a \/ (s_ml a = s_mh b /\ s_hi b <= s_hi a)) ->
       exists new, dag_loop fuel ns (l :: lead) (S t) ed = Some (ed ++ new) /\
         forall p q, In (p, q) new \/ ((p, q) = (t, l) /\ pc b a) <-> (t <= p)%nat /\ In q (l :: lead) /\ dag_rel ns p q).
    { intros ed C. destruct (IH (l :: lead) (S t) ed) as [new [E H]]; [cbn [length] in *; lia| |].
      { apply (li_next l lead t a b I Ea Eb). lia. }
      exists new. split; [exact E|]. intros p q. rewrite H. split.
      - intros [[H1 [H2 H3]]|[K P]]; [split; [lia|tauto]|].
        assert (p = t) by congruence. assert (q = l) by congruence. subst p q.
        split; [lia|]. split; [left; reflexivity|apply Here, P].
      - intros [H1 [H2 H3]]. destruct (Nat.eq_dec p t) as [->|N]; [|left; split; [lia|tauto]].
        destruct H2 as [<-|H2]; [right; split; [reflexivity|apply Here, H3]|].
        exfalso. exact (SkipT C q H2 H3). }
    assert (Cons : forall r ed, (exists new, r = Some ((ed ++ [(t, l)]) ++ new) /\
         forall p q, In (p, q) new \/ ((p, q) = (t, l) /\ pc b a) <-> (t <= p)%nat /\ In q (l :: lead) /\ dag_rel ns p q) -> pc b a ->
         exists new, r = Some (ed ++ new) /\ forall p q, In (p, q) new <-> (t <= p)%nat /\ In q (l :: lead) /\ dag_rel ns p q).
    { intros r ed [new [E H]] P. exists ((t, l) :: new). split; [rewrite E, <- app_assoc; reflexivity|].
      intros p q. rewrite <- H. cbn [In]. split; [intros [K|K]; [right; split; [congruence|exact P]|left; exact K]|].
      intros [K|[K _]]; [right; exact K|left; congruence]. }
    assert (Skip : forall r ed, (exists new, r = Some (ed ++ new) /\
         forall p q, In (p, q) new \/ ((p, q) = (t, l) /\ pc b a) <-> (t <= p)%nat /\ In q (l :: lead) /\ dag_rel ns p q) -> ~ pc b a ->
         exists new, r = Some (ed ++ new) /\ forall p q, In (p, q) new <-> (t <= p)%nat /\ In q (l :: lead) /\ dag_rel ns p q).
    { intros r ed [new [E H]] P. exists new. split; [exact E|]. intros p q. rewrite <- H. tauto. }
    unfold pc in *.
    destruct (Z.ltb_spec (s_ml a) (s_mh b)) as [G1|G1]; [apply Skip; [apply AdvL; lia|lia]|].
    destruct (Z.gtb_spec (s_ml a) (s_mh b)) as [G2|G2]; [apply Skip; [apply AdvT; lia|lia]|].
    destruct (Z.leb_spec (s_hi a) (s_lo b)) as [G3|G3]; [apply Skip; [apply AdvL; lia|lia]|].
    destruct (Z.leb_spec (s_hi b) (s_lo a)) as [G4|G4]; [apply Skip; [apply AdvT; lia|lia]|].
    cbv zeta.
    destruct (Z.gtb_spec (s_hi a) (s_hi b)) as [G5|G5]; [apply Cons; [apply AdvT; lia|lia]|].
    destruct (Z.gtb_spec (s_hi b) (s_hi a)) as [G6|G6]; [apply Cons; [apply AdvL; lia|lia]|].
    (* both end at the same place *)
    apply Cons; [|lia].
    destruct lead as [|l2 lead].
    { exists []. split; [destruct fuel; rewrite app_nil_r; reflexivity|].
      intros p q. split.
      - intros [[]|[K P]]. assert (p = t) by congruence. assert (q = l) by congruence. subst p q.
        split; [lia|]. split; [left; reflexivity|apply Here, P].
      - intros [B1 [[<-|[]] B3]]. destruct (Nat.eq_dec p t) as [->|N]; [right; split; [reflexivity|apply Here, B3]|].
        exfalso. apply (SkipL ltac:(lia) p); [lia|exact B3]. }
    assert (I2 : lead_inv (l2 :: lead) (S t)).
    { constructor.
      - exact (li_in _ _ (li_tail _ _ _ I)).
      - exact (li_sorted _ _ (li_tail _ _ _ I)).
      - intros q c Hq Ec. pose proof (li_next l (l2 :: lead) t a b I Ea Eb) as In2.
        assert (Lab : s_mh b <= s_ml a) by lia. specialize (In2 Lab).
        exact (li_room _ _ (li_tail _ _ _ In2) q c Hq Ec). }
    destruct (IH (l2 :: lead) (S t) (edges ++ [(t, l)])) as [new [E H']]; [cbn [length] in *; lia|exact I2|].
    exists new. split; [exact E|]. intros p q. rewrite H'. split.
    + intros [[B1 [B2 B3]]|[K P]]; [split; [lia|split; [right; exact B2|exact B3]]|].
      assert (p = t) by congruence. assert (q = l) by congruence. subst p q.
      split; [lia|]. split; [left; reflexivity|apply Here, P].
    + intros [B1 [[<-|B2] B3]].
      * destruct (Nat.eq_dec p t) as [->|N]; [right; split; [reflexivity|apply Here, B3]|].
        exfalso. apply (SkipL ltac:(lia) p); [lia|exact B3].
      * destruct (Nat.eq_dec p t) as [->|N]; [exfalso; exact (SkipT ltac:(lia) q B2 B3)|].
        left. split; [lia|tauto].
Qed.

Lemma computeDag_spec lead : sorted_leads ns lead -> exists edges, computeDag ns lead = Some edges /\
  forall p q, In q (kids edges p) <-> dag_rel ns p q.
Proof.
  intros [P S]. assert (InL : forall l, In l lead <-> (l < length ns)%nat).
  { intros l. split; intros H; [apply (Permutation_in _ P) in H; apply in_seq in H; lia|].
    apply (Permutation_in _ (Permutation_sym P)), in_seq. lia. }
  assert (ND : NoDup lead) by (apply (Permutation_NoDup (Permutation_sym P)), seq_NoDup).
  assert (I : lead_inv lead 0).
  { constructor.
    - intros l Hl. apply InL in Hl. destruct (nth_error ns l) as [a|] eqn:E; [exists a; reflexivity|].
      apply nth_error_None in E. lia.
    - clear -S ND OK. induction S as [|i l F S IH]; constructor; [|apply IH; inversion ND; assumption].
      inversion ND as [|? ? Ni ND']; subst. rewrite Forall_forall in *. intros j Hj a b Ea Eb.
      specialize (F j Hj a b Ea Eb).
      assert (Nij : i <> j) by (intros ->; contradiction).
      destruct (no_l ns OK i j a b Nij Ea Eb) as [Q|Q]; [exact Q|]. exfalso.
      pose proof (no_ne ns OK i a Ea) as Na. pose proof (no_ne ns OK j b Eb) as Nb. unfold sr_ne in *.
      unfold lead_less, ivl_less in F. cbn [sr_ivl lo hi] in F. unfold l_lt in Q.
      destruct (Z.ltb_spec (s_ml b) (s_ml a)); [discriminate|].
      destruct (Z.gtb_spec (s_ml b) (s_ml a)); [lia|].
      destruct (Z.eqb_spec (s_lo b) (s_lo a)); cbn [negb] in F; lia.
    - intros l a Hl Ea. exists l, a. split; [lia|]. split; [exact Ea|]. destruct (no_ne ns OK l a Ea) as [_ N]. exact N. }
  destruct (dag_loop_spec (length lead + length ns) lead 0 [] ) as [new [E H]]; [lia|exact I|].
  exists new. split; [exact E|]. intros p q. unfold kids. rewrite in_map_iff. split.
  - intros [[p' q'] [<- Hf]]. apply filter_In in Hf. destruct Hf as [Hn Hq]. apply H in Hn. cbn [fst snd] in *.
    apply Nat.eqb_eq in Hq. subst p'. apply Hn.
  - intros R. exists (p, q). split; [reflexivity|]. apply filter_In. cbn [fst]. split; [|apply Nat.eqb_refl].
    apply H. split; [lia|]. split; [|exact R]. apply InL. destruct R as [a [b [E1 _]]].
    apply nth_error_Some. congruence.
Qed.
End Dag.
