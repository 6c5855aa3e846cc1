(* Property maps (sorted vectors of property and count) and property sets. *)
From Coq Require Import Permutation.
From Verif Require Import Base Scan90Spec BoolOpModel VertexLemmas ScanMap Set90Spec Set90Model PropMergeSpec PropMergeModel.

Lemma set_eqb_spec a : forall b, set_eqb a b = true <-> a = b.
Proof.
  induction a as [|x a IH]; destruct b as [|y b]; cbn [set_eqb]; try (split; [discriminate|discriminate]); [tauto|].
  rewrite andb_true_iff, IH, Z.eqb_eq. split; [intros [-> ->]; reflexivity|]. intros E. split; congruence.
Qed.
Lemma set_eqb_refl a : set_eqb a a = true.
Proof. apply set_eqb_spec. reflexivity. Qed.
Lemma pmap_eqb_eq a : forall b, pmap_eqb a b = true -> a = b.
Proof.
  induction a as [|[p c] a IH]; destruct b as [|[q d] b]; cbn [pmap_eqb]; try discriminate; [reflexivity|].
  intros H. apply andb_prop in H. destruct H as [H1 H2]. apply andb_prop in H1. destruct H1 as [H3 H4].
  apply Z.eqb_eq in H3. apply Z.eqb_eq in H4. apply IH in H2. congruence.
Qed.

Lemma prop_set_nil_in S : prop_set S -> forall p, In p S -> Forall (fun q => p <= q) S -> hd_error S = Some p.
Proof.
  destruct S as [|a S]; intros H p Hp Hf; [destruct Hp|]. inversion Hf as [|b l H1 H2]; subst. cbn [hd_error].
  inversion H as [|b l H3 H4]; subst. destruct Hp as [->|Hp]; [reflexivity|].
  rewrite Forall_forall in H4. apply H4 in Hp. lia.
Qed.
Lemma prop_set_ext a : forall b, prop_set a -> prop_set b -> (forall p, In p a <-> In p b) -> a = b.
Proof.
  induction a as [|x a IH]; intros b Ha Hb H.
  - destruct b as [|y b]; [reflexivity|]. destruct (proj2 (H y)). left. reflexivity.
  - inversion Ha as [|x' a' Ha1 Ha2]; subst. destruct b as [|y b]; [destruct (proj1 (H x)); left; reflexivity|].
    inversion Hb as [|y' b' Hb1 Hb2]; subst. rewrite Forall_forall in Ha2, Hb2.
    assert (x = y).
    { destruct (proj1 (H x)) as [E|E]; [left; reflexivity|symmetry; exact E|]. destruct (proj2 (H y)) as [E'|E']; [left; reflexivity|exact E'|].
      apply Hb2 in E. apply Ha2 in E'. lia. }
    subst y. f_equal. apply IH; [exact Ha1|exact Hb1|]. intros p. specialize (H p). cbn [In] in H. split; intros Hp.
    + destruct (proj1 H) as [E|E]; [right; exact Hp| |exact E]. subst p. apply Ha2 in Hp. lia.
    + destruct (proj2 H) as [E|E]; [right; exact Hp| |exact E]. subst p. apply Hb2 in Hp. lia.
Qed.

(* the count of a property *)
Fixpoint pcount (m : pmap) (p : Z) : Z :=
  match m with [] => 0 | (q, c) :: m' => (if q =? p then c else 0) + pcount m' p end.

Lemma pcount_app a b p : pcount (a ++ b) p = pcount a p + pcount b p.
Proof. induction a as [|[q c] a IH]; cbn [app pcount]; [reflexivity|]. rewrite IH. lia. Qed.
Lemma pcount_rev a p : pcount (rev a) p = pcount a p.
Proof. induction a as [|[q c] a IH]; cbn [rev pcount]; [reflexivity|]. rewrite pcount_app, IH. cbn [pcount]. lia. Qed.
Lemma pcount_kge k m p : kge k m -> p < k -> pcount m p = 0.
Proof.
  induction m as [|[q c] m IH]; intros H Hp; cbn [pcount]; [reflexivity|]. apply kge_cons in H. destruct H as [H1 H2].
  rewrite IH by assumption. destruct (Z.eqb_spec q p); lia.
Qed.
Lemma pcount_filter m p : pcount (filter (fun e => negb (snd e =? 0)) m) p = pcount m p.
Proof.
  induction m as [|[q c] m IH]; cbn [filter pcount snd]; [reflexivity|]. destruct (Z.eqb_spec c 0); cbn [negb pcount]; rewrite IH; [|reflexivity].
  destruct (q =? p); lia.
Qed.

(* ---------- mergeProperty ---------- *)
Lemma mergeProperty_count l p c q : pcount (mergeProperty l p c) q = pcount l q + (if p =? q then c else 0).
Proof.
  induction l as [|[r d] l IH]; cbn [mergeProperty pcount]; [lia|].
  destruct (r <? p); cbn [pcount]; [rewrite IH; lia|].
  destruct (Z.eqb_spec r p) as [->|Hr].
  - destruct (Z.eqb_spec (d + c) 0); cbn [pcount]; destruct (p =? q); lia.
  - cbn [pcount]. lia.
Qed.
Lemma mergeProperty_sorted l p c : ksorted l -> ksorted (mergeProperty l p c) /\ forall k, kge k l -> k <= p -> kge k (mergeProperty l p c).
Proof.
  induction l as [|[r d] l IH]; intros H; cbn [mergeProperty].
  - split; [apply ksorted_cons; split; [constructor|constructor]|]. intros k _ Hk. apply kge_cons. split; [exact Hk|constructor].
  - pose proof H as H0. apply ksorted_cons in H. destruct H as [H1 H2]. destruct (IH H1) as [I1 I2].
    destruct (Z.ltb_spec r p).
    + split; [apply ksorted_cons; split; [exact I1|]; apply I2; [exact H2|lia]|].
      intros k Hk Hp. apply kge_cons in Hk. apply kge_cons. split; [apply Hk|]. apply I2; [apply Hk|exact Hp].
    + destruct (Z.eqb_spec r p) as [->|Hr].
      * destruct (d + c =? 0).
        -- split; [exact H1|]. intros k Hk _. apply kge_cons in Hk. apply Hk.
        -- split; [apply ksorted_cons; split; assumption|]. intros k Hk _. apply kge_cons in Hk. apply kge_cons. exact Hk.
      * split.
        -- apply ksorted_cons. split; [exact H0|]. apply kge_cons. split; [lia|]. eapply kge_weaken; [|exact H2]. lia.
        -- intros k Hk Hp. apply kge_cons. split; [exact Hp|exact Hk].
Qed.

(* ---------- mergeCount ---------- *)
Lemma mc_push_count t e p : pcount (mc_push t e) p = pcount t p + (if fst e =? p then snd e else 0).
Proof.
  destruct e as [k c], t as [|[q d] t]; cbn [mc_push pcount fst snd]; [lia|].
  destruct (Z.eqb_spec k q) as [->|Hk]; cbn [pcount]; [destruct (q =? p)|]; lia.
Qed.
Lemma mc_fold_count r : forall t p, pcount (fold_left mc_push r t) p = pcount t p + pcount r p.
Proof.
  induction r as [|[k c] r IH]; intros t p; cbn [fold_left pcount]; [lia|]. rewrite IH, mc_push_count. cbn [fst snd]. lia.
Qed.
Lemma mc_merge_count l : forall r t p, pcount (mc_merge l r t) p = pcount t p + pcount l p + pcount r p.
Proof.
  induction l as [|[a c] l IH]; intros r t p.
  - destruct r as [|b r]; cbn [mc_merge]; rewrite mc_fold_count; cbn [pcount]; lia.
  - revert t. induction r as [|[b d] r IHr]; intros t.
    + cbn [mc_merge]. rewrite mc_fold_count. cbn [pcount]. lia.
    + change (mc_merge ((a, c) :: l) ((b, d) :: r) t) with
        (if a <=? b then mc_merge l ((b, d) :: r) (mc_push t (a, c)) else mc_merge ((a, c) :: l) r (mc_push t (b, d))).
      destruct (a <=? b).
      * rewrite IH, mc_push_count. cbn [fst snd pcount]. lia.
      * rewrite IHr, mc_push_count. cbn [fst snd pcount]. lia.
Qed.
Lemma mergeCount_count l r p : pcount (mergeCount l r) p = pcount l p + pcount r p.
Proof. unfold mergeCount. rewrite pcount_filter, pcount_rev, mc_merge_count. cbn [pcount]. lia. Qed.

(* tmpVector: sorted, with keys up to k *)
Definition tmp_ok (t : pmap) (k : Z) : Prop := ksorted (rev t) /\ klt (k + 1) (rev t).
Lemma mc_push_ok t k e : tmp_ok t k -> k <= fst e -> match t with [] => True | (q, _) :: _ => q <= fst e end ->
  tmp_ok (mc_push t e) (fst e).
Proof.
  destruct e as [a c], t as [|[q d] t]; cbn [mc_push fst snd]; intros [H1 H2] Hk Hq.
  - split; cbn [rev app]; [apply ksorted_cons; split; constructor|]. apply klt_cons. split; [lia|constructor].
  - cbn [rev] in H1, H2. apply ksorted_app in H1. destruct H1 as [S1 [S2 S3]].
    apply klt_app in H2. destruct H2 as [L1 L2]. apply klt_cons in L2. destruct L2 as [L2 _].
    destruct (Z.eqb_spec a q) as [->|Ha]; unfold tmp_ok; cbn [rev].
    + split; [apply ksorted_app; split; [exact S1|]; split|].
      * apply ksorted_cons. split; constructor.
      * intros p p' Hp Hp'. destruct Hp' as [<-|[]]. cbn [fst]. apply (S3 p (q, d)); [exact Hp|left; reflexivity].
      * apply klt_app. split; [eapply klt_weaken; [|exact L1]; lia|]. apply klt_cons. split; [lia|constructor].
    + assert (F : klt a (rev t ++ [(q, d)])).
      { apply klt_app. split; [|apply klt_cons; split; [lia|constructor]]. apply Forall_forall. intros p Hp.
        specialize (S3 p (q, d) Hp (or_introl eq_refl)). cbn [fst] in S3. lia. }
      split.
      * apply ksorted_app. split; [apply ksorted_app; split; [exact S1|split; [exact S2|exact S3]]|]. split.
        -- apply ksorted_cons. split; constructor.
        -- intros p p' Hp Hp'. destruct Hp' as [<-|[]]. cbn [fst]. unfold klt in F. rewrite Forall_forall in F. apply F. exact Hp.
      * apply klt_app. split; [eapply klt_weaken; [|exact F]; lia|]. apply klt_cons. split; [lia|constructor].
Qed.
Lemma tmp_ok_head t k : tmp_ok t k -> match t with [] => True | (q, _) :: _ => q <= k end.
Proof.
  destruct t as [|[q d] t]; [exact (fun _ => I)|]. intros [_ H]. cbn [rev] in H. apply klt_app in H. destruct H as [_ H]. apply klt_cons in H. lia.
Qed.
Lemma mc_push_ok' t k e : tmp_ok t k -> k <= fst e -> tmp_ok (mc_push t e) (fst e).
Proof. intros H Hk. apply (mc_push_ok t k); [exact H|exact Hk|]. apply tmp_ok_head in H. destruct t as [|[q d] t]; [exact I|lia]. Qed.

Lemma mc_fold_ok r : forall t k, ksorted r -> kge k r -> tmp_ok t k -> exists k', tmp_ok (fold_left mc_push r t) k'.
Proof.
  induction r as [|[a c] r IH]; intros t k Hs Hk Ht; cbn [fold_left]; [exists k; exact Ht|].
  apply ksorted_cons in Hs. apply kge_cons in Hk. apply (IH _ a); [apply Hs|eapply kge_weaken; [|apply Hs]; lia|].
  apply (mc_push_ok' t k (a, c)); [exact Ht|cbn [fst]; lia].
Qed.
Lemma mc_merge_ok l : forall r t k, ksorted l -> ksorted r -> kge k l -> kge k r -> tmp_ok t k ->
  exists k', tmp_ok (mc_merge l r t) k'.
Proof.
  induction l as [|[a c] l IH]; intros r t k Hl Hr Kl Kr Ht.
  - assert (E : mc_merge [] r t = fold_left mc_push r t) by (destruct r; reflexivity). rewrite E. eapply mc_fold_ok; eassumption.
  - revert t k Kl Kr Ht. induction r as [|[b d] r IHr]; intros t k Kl Kr Ht.
    + cbn [mc_merge]. eapply mc_fold_ok; eassumption.
    + change (mc_merge ((a, c) :: l) ((b, d) :: r) t) with
        (if a <=? b then mc_merge l ((b, d) :: r) (mc_push t (a, c)) else mc_merge ((a, c) :: l) r (mc_push t (b, d))).
      pose proof Hl as Hl0. pose proof Hr as Hr0. apply ksorted_cons in Hl. apply ksorted_cons in Hr.
      pose proof Kl as Kl0. pose proof Kr as Kr0. apply kge_cons in Kl. apply kge_cons in Kr.
      destruct (Z.leb_spec a b).
      * apply (IH _ _ a); [apply Hl|exact Hr0|eapply kge_weaken; [|apply Hl]; lia| |].
        -- apply kge_cons. split; [lia|]. eapply kge_weaken; [|apply Hr]. lia.
        -- apply (mc_push_ok' t k (a, c)); [exact Ht|cbn [fst]; lia].
      * apply (IHr (proj1 Hr) _ b).
        -- apply kge_cons. split; [lia|]. eapply kge_weaken; [|apply Hl]. lia.
        -- eapply kge_weaken; [|apply Hr]. lia.
        -- apply (mc_push_ok' t k (b, d)); [exact Ht|cbn [fst]; lia].
Qed.
Lemma ksorted_filter (f : Z * Z -> bool) m : ksorted m -> ksorted (filter f m) /\ forall k, kge k m -> kge k (filter f m).
Proof.
  induction m as [|[q c] m IH]; intros H; cbn [filter]; [split; [exact H|tauto]|].
  apply ksorted_cons in H. destruct H as [H1 H2]. destruct (IH H1) as [I1 I2]. destruct (f (q, c)).
  - split; [apply ksorted_cons; split; [exact I1|apply I2; exact H2]|]. intros k Hk. apply kge_cons in Hk. apply kge_cons. split; [apply Hk|apply I2; apply Hk].
  - split; [exact I1|]. intros k Hk. apply kge_cons in Hk. apply I2. apply Hk.
Qed.
Lemma kge_exists (a b : pmap) : exists k, kge k a /\ kge k b.
Proof.
  assert (H : forall m : pmap, exists k, kge k m).
  { induction m as [|[q c] m [k IH]]; [exists 0; constructor|]. exists (Z.min q k). apply kge_cons. split; [lia|]. eapply kge_weaken; [|exact IH]. lia. }
  destruct (H a) as [k1 K1], (H b) as [k2 K2]. exists (Z.min k1 k2). split; (eapply kge_weaken; [|eassumption]); lia.
Qed.
Lemma mergeCount_sorted l r : ksorted l -> ksorted r -> ksorted (mergeCount l r).
Proof.
  intros Hl Hr. destruct (kge_exists l r) as [k [K1 K2]].
  destruct (mc_merge_ok l r [] k Hl Hr K1 K2) as [k' [H _]]; [split; constructor|].
  unfold mergeCount. apply ksorted_filter. exact H.
Qed.

(* ---------- setProperty ---------- *)
Lemma setProperty_lower m k : kge k m -> Forall (fun p => k <= p) (setProperty m).
Proof.
  induction m as [|[q c] m IH]; intros H; cbn [setProperty]; [constructor|]. apply kge_cons in H.
  destruct (c >? 0); [constructor; [apply H|]|]; apply IH; apply H.
Qed.
Lemma setProperty_set m : ksorted m -> prop_set (setProperty m).
Proof.
  unfold prop_set. induction m as [|[q c] m IH]; intros H; cbn [setProperty]; [constructor|]. apply ksorted_cons in H. destruct H as [H1 H2].
  destruct (c >? 0); [|apply IH; exact H1]. constructor; [apply IH; exact H1|].
  eapply Forall_impl; [|apply (setProperty_lower m (q + 1)); exact H2]. cbn beta. intros a Ha. lia.
Qed.
Lemma setProperty_in m p : ksorted m -> (In p (setProperty m) <-> 0 < pcount m p).
Proof.
  induction m as [|[q c] m IH]; intros H; cbn [setProperty pcount]; [cbn [In]; lia|]. apply ksorted_cons in H. destruct H as [H1 H2].
  specialize (IH H1). destruct (Z.eqb_spec q p) as [->|Hq].
  - rewrite (pcount_kge (p + 1) m p H2) by lia.
    assert (N : ~ In p (setProperty m)).
    { intros Hi. pose proof (setProperty_lower m (p + 1) H2) as F. rewrite Forall_forall in F. apply F in Hi. lia. }
    destruct (Z.gtb_spec c 0) as [Hc|Hc]; cbn [In]; split; intros Hi; try lia; try (left; reflexivity). contradiction (N Hi).
  - destruct (c >? 0); cbn [In]; [|rewrite IH; lia]. split; [intros [E|Hi]; [contradiction|]|]; [apply IH in Hi; lia|].
    intros Hp. right. apply IH. lia.
Qed.
Lemma setProperty_ext a b : ksorted a -> ksorted b -> (forall p, pcount a p = pcount b p) -> setProperty a = setProperty b.
Proof.
  intros Ha Hb H. apply prop_set_ext; [apply setProperty_set; exact Ha|apply setProperty_set; exact Hb|].
  intros p. rewrite (setProperty_in a p Ha), (setProperty_in b p Hb), H. reflexivity.
Qed.
