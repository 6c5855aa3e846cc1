(* What one call of TouchOp::processInterval does to the scan map and the graph. *)
From Verif Require Import Base Scan90Spec BoolOpModel ScanMap ScanProcess Set90Spec Set90Model TouchSpec TouchModel.

Ltac conj := lazymatch goal with |- _ /\ _ => split; conj | _ => try assumption end.

(* ---------- sets ---------- *)
Definition sset (s : idset) : Prop := StronglySorted Z.lt s.

Lemma set_mem_In i s : set_mem i s = true <-> In i s.
Proof.
  unfold set_mem. rewrite existsb_exists. split.
  - intros [j [H1 H2]]. apply Z.eqb_eq in H2. subst. exact H1.
  - intros H. exists i. split; [exact H|apply Z.eqb_refl].
Qed.
Lemma set_mem_false i s : set_mem i s = false <-> ~ In i s.
Proof. rewrite <- set_mem_In. destruct (set_mem i s); split; congruence. Qed.
Lemma set_insert_In i s j : In j (set_insert i s) <-> j = i \/ In j s.
Proof.
  induction s as [|k s IH]; cbn [set_insert].
  - cbn [In]. intuition congruence.
  - destruct (Z.ltb_spec i k); [cbn [In]; intuition congruence|].
    destruct (Z.eqb_spec i k); [subst; cbn [In]; intuition congruence|].
    cbn [In]. rewrite IH. intuition congruence.
Qed.
Lemma set_erase_In i s j : In j (set_erase i s) <-> j <> i /\ In j s.
Proof.
  unfold set_erase. rewrite filter_In. destruct (Z.eqb_spec j i); cbn [negb]; intuition congruence.
Qed.
Lemma set_insert_sset i s : sset s -> sset (set_insert i s).
Proof.
  unfold sset. induction s as [|k s IH]; intros H; cbn [set_insert].
  - constructor; constructor.
  - inversion H as [|x l H1 H2]; subst. destruct (Z.ltb_spec i k).
    + constructor; [exact H|]. constructor; [assumption|].
      eapply Forall_impl; [|exact H2]. intros a Ha. cbn beta in Ha. lia.
    + destruct (Z.eqb_spec i k); [exact H|]. constructor; [apply IH; exact H1|].
      apply Forall_forall. intros j Hj. apply set_insert_In in Hj. destruct Hj as [->|Hj]; [lia|].
      rewrite Forall_forall in H2. apply H2. exact Hj.
Qed.
Lemma set_erase_sset i s : sset s -> sset (set_erase i s).
Proof.
  unfold sset. induction s as [|k s IH]; intros H; [constructor|].
  inversion H as [|x l H1 H2]; subst. cbn [set_erase filter].
  destruct (negb (k =? i)); [|apply IH; exact H1].
  constructor; [apply IH; exact H1|]. apply Forall_forall. intros j Hj.
  apply set_erase_In in Hj. rewrite Forall_forall in H2. apply H2. apply Hj.
Qed.
Lemma sset_NoDup s : sset s -> NoDup s.
Proof.
  unfold sset. induction s as [|k s IH]; intros H; [constructor|].
  inversion H as [|x l H1 H2]; subst. constructor; [|apply IH; exact H1].
  intros Hk. rewrite Forall_forall in H2. specialize (H2 k Hk). lia.
Qed.
Lemma set_toggle_sset i s : sset s -> sset (set_toggle i s).
Proof. intros H. unfold set_toggle. destruct (set_mem i s); [apply set_erase_sset|apply set_insert_sset]; exact H. Qed.
Lemma set_toggle_In i s j : In j (set_toggle i s) <-> (if j =? i then ~ In j s else In j s).
Proof.
  unfold set_toggle. destruct (set_mem i s) eqn:E.
  - apply set_mem_In in E. rewrite set_erase_In. destruct (Z.eqb_spec j i); [subst|]; tauto.
  - apply set_mem_false in E. rewrite set_insert_In. destruct (Z.eqb_spec j i); [subst|]; tauto.
Qed.
Lemma set_mem_toggle i s j : set_mem j (set_toggle i s) = xorb (j =? i) (set_mem j s).
Proof.
  pose proof (set_toggle_In i s j) as H.
  destruct (set_mem j (set_toggle i s)) eqn:E1; destruct (set_mem j s) eqn:E2;
    rewrite ?set_mem_In, ?set_mem_false in *; destruct (Z.eqb_spec j i); cbn [xorb]; tauto.
Qed.
Lemma set_eqb_eq s : forall t, set_eqb s t = true <-> s = t.
Proof.
  induction s as [|i s IH]; intros [|j t]; cbn [set_eqb]; split; intros H; try discriminate; try reflexivity.
  - apply andb_true_iff in H. destruct H as [H1 H2]. apply Z.eqb_eq in H1. apply IH in H2. congruence.
  - assert (i = j /\ s = t) as [-> ->] by (split; congruence).
    apply andb_true_iff. split; [apply Z.eqb_refl|apply IH; reflexivity].
Qed.

(* ---------- the graph ---------- *)
Definition gvalid (g : graph) (i : Z) : Prop := 0 <= i < Z.of_nat (length g).
(* the unordered pair {a,b} is {x,y}, with different elements *)
Definition pr (x y a b : Z) : Prop := x <> y /\ ((x = a /\ y = b) \/ (x = b /\ y = a)).
(* g' is g with the edges E added, both ways *)
Definition adds (g g' : graph) (E : Z -> Z -> Prop) : Prop :=
  length g' = length g /\ forall x y, edge g' x y <-> edge g x y \/ E x y.

Lemma adds_valid g g' E i : adds g g' E -> gvalid g i -> gvalid g' i.
Proof. intros [H _]. unfold gvalid. rewrite H. trivial. Qed.
Lemma adds_trans g1 g2 g3 E F G : adds g1 g2 E -> adds g2 g3 F ->
  (forall x y, G x y <-> E x y \/ F x y) -> adds g1 g3 G.
Proof.
  intros [H1 H2] [H3 H4] H. split; [congruence|]. intros x y. rewrite H4, H2, H. tauto.
Qed.
Lemma adds_none g (E : Z -> Z -> Prop) : (forall x y, ~ E x y) -> adds g g E.
Proof. intros H. split; [reflexivity|]. intros x y. specialize (H x y). tauto. Qed.
Lemma adds_iff g g' E F : (forall x y, E x y <-> F x y) -> adds g g' E -> adds g g' F.
Proof. intros H [H1 H2]. split; [exact H1|]. intros x y. rewrite H2, H. tauto. Qed.

Lemma g_update_spec n b : forall g, (n < length g)%nat -> exists g', g_update n b g = Some g' /\
  length g' = length g /\
  forall m, nth_error g' m = if Nat.eqb m n then option_map (set_insert b) (nth_error g m) else nth_error g m.
Proof.
  induction n as [|n IH]; intros [|s g] H; cbn [length] in H; try lia; cbn [g_update].
  - eexists. split; [reflexivity|]. split; [reflexivity|]. intros [|m]; reflexivity.
  - destruct (IH g) as [g' [E [EL Em]]]; [lia|]. rewrite E. cbn [bind].
    eexists. split; [reflexivity|]. split; [cbn [length]; congruence|].
    intros [|m]; [reflexivity|]. cbn [nth_error Nat.eqb]. apply Em.
Qed.
Lemma g_insert_spec a b g : gvalid g a -> exists g', g_insert a b g = Some g' /\
  adds g g' (fun x y => x = a /\ y = b).
Proof.
  intros [H1 H2]. unfold g_insert. destruct (Z.ltb_spec a 0); [lia|].
  destruct (g_update_spec (Z.to_nat a) b g) as [g' [E [EL Em]]]; [lia|].
  exists g'. split; [exact E|]. split; [exact EL|]. intros x y. unfold edge.
  destruct (Z.leb_spec 0 x) as [Hx|Hx].
  2:{ split; [intros [H0 _]; lia|]. intros [[H0 _]|[-> _]]; lia. }
  rewrite Em. destruct (Nat.eqb_spec (Z.to_nat x) (Z.to_nat a)) as [En|En].
  - assert (Ex : x = a) by lia. subst x.
    destruct (nth_error g (Z.to_nat a)) as [s|] eqn:Es.
    2:{ apply nth_error_None in Es. lia. }
    cbn [option_map]. split.
    + intros [_ [s' [E1 E2]]]. assert (Es' : s' = set_insert b s) by congruence. subst s'.
      apply set_insert_In in E2. destruct E2 as [->|E2]; [right; split; reflexivity|].
      left. split; [exact Hx|]. exists s. split; [reflexivity|exact E2].
    + intros [[_ [s' [E1 E2]]]|[_ ->]].
      * assert (s' = s) by congruence. subst s'. split; [exact Hx|]. eexists. split; [reflexivity|].
        apply set_insert_In. right. exact E2.
      * split; [exact Hx|]. eexists. split; [reflexivity|]. apply set_insert_In. left. reflexivity.
  - split; [intros H0; left; exact H0|]. intros [H0|[-> _]]; [exact H0|]. contradiction.
Qed.

Lemma evaluateBorderId_spec ids : forall c g, gvalid g c -> Forall (gvalid g) ids ->
  exists g', evaluateBorderId ids c g = Some g' /\ adds g g' (fun x y => exists j, In j ids /\ pr x y c j).
Proof.
  induction ids as [|j ids IH]; intros c g Hc Hi; cbn [evaluateBorderId].
  - exists g. split; [reflexivity|]. apply adds_none. intros x y [j [[] _]].
  - inversion Hi as [|x l Hj Hi']; subst.
    assert (H : exists g1, (if negb (c =? j) then do g0 <- g_insert c j g; g_insert j c g0 else Some g) = Some g1 /\
              adds g g1 (fun x y => pr x y c j)).
    { destruct (Z.eqb_spec c j) as [E|E]; cbn [negb].
      - exists g. split; [reflexivity|]. apply adds_none. unfold pr. intros x y H. lia.
      - destruct (g_insert_spec c j g Hc) as [g0 [E0 A0]]. rewrite E0. cbn [bind].
        destruct (g_insert_spec j c g0 (adds_valid _ _ _ _ A0 Hj)) as [g1 [E1 A1]].
        exists g1. split; [exact E1|]. eapply adds_trans; [exact A0|exact A1|].
        unfold pr. intros x y. cbn beta. clear -E. lia. }
    destruct H as [g1 [E1 A1]]. rewrite E1. cbn [bind].
    destruct (IH c g1) as [g' [E' A']].
    + exact (adds_valid _ _ _ _ A1 Hc).
    + eapply Forall_impl; [|exact Hi']. intros a. apply (adds_valid _ _ _ _ A1).
    + exists g'. split; [exact E'|]. eapply adds_trans; [exact A1|exact A'|]. intros x y. cbn beta. split.
      * intros [i [[->|Hi0] Hp]]; [left; exact Hp|right; exists i; split; assumption].
      * intros [Hp|[i [Hi0 Hp]]]; [exists j; split; [left; reflexivity|exact Hp]|exists i; split; [right|]; assumption].
Qed.

Lemma evaluateBorder_spec ids cs : forall g, Forall (gvalid g) cs -> Forall (gvalid g) ids ->
  exists g', evaluateBorder ids cs g = Some g' /\
    adds g g' (fun x y => exists c j, In c cs /\ In j ids /\ pr x y c j).
Proof.
  induction cs as [|c cs IH]; intros g Hc Hi; cbn [evaluateBorder].
  - exists g. split; [reflexivity|]. apply adds_none. intros x y [c [j [[] _]]].
  - inversion Hc as [|x l Hc0 Hc']; subst.
    destruct (evaluateBorderId_spec ids c g Hc0 Hi) as [g1 [E1 A1]]. rewrite E1. cbn [bind].
    destruct (IH g1) as [g' [E' A']].
    + eapply Forall_impl; [|exact Hc']. intros a. apply (adds_valid _ _ _ _ A1).
    + eapply Forall_impl; [|exact Hi]. intros a. apply (adds_valid _ _ _ _ A1).
    + exists g'. split; [exact E'|]. eapply adds_trans; [exact A1|exact A'|]. intros x y. cbn beta. split.
      * intros [d [j [[->|Hd] [Hj Hp]]]]; [left; exists j; split; assumption|].
        right. exists d, j. conj.
      * intros [[j [Hj Hp]]|[d [j [Hd [Hj Hp]]]]].
        -- exists c, j. split; [left; reflexivity|]. split; assumption.
        -- exists d, j. split; [right; exact Hd|]. split; assumption.
Qed.

(* the new set of ids of an interval *)
Definition newids (lead : bool) (cs ids : idset) : idset :=
  fold_left (fun s c => if lead then (if set_mem c s then s else set_insert c s)
                        else (if set_mem c s then set_erase c s else s)) cs ids.
Lemma newids_cons lead c cs ids : newids lead (c :: cs) ids =
  newids lead cs (if lead then (if set_mem c ids then ids else set_insert c ids)
                  else (if set_mem c ids then set_erase c ids else ids)).
Proof. reflexivity. Qed.
Lemma newids_In lead cs : forall ids j, In j (newids lead cs ids) <->
  (if lead then In j ids \/ In j cs else In j ids /\ ~ In j cs).
Proof.
  induction cs as [|c cs IH]; intros ids j.
  - destruct lead; cbn [In newids fold_left]; tauto.
  - rewrite newids_cons, IH. destruct lead.
    + cbn [In]. destruct (set_mem c ids) eqn:E.
      * apply set_mem_In in E. split; [tauto|]. intros [H|[H|H]]; [tauto|subst; tauto|tauto].
      * rewrite set_insert_In. intuition congruence.
    + cbn [In]. destruct (set_mem c ids) eqn:E.
      * rewrite set_erase_In. intuition congruence.
      * apply set_mem_false in E. intuition congruence.
Qed.
Lemma newids_sset lead cs : forall ids, sset ids -> sset (newids lead cs ids).
Proof.
  induction cs as [|c cs IH]; intros ids H; [exact H|].
  rewrite newids_cons. apply IH. destruct lead; destruct (set_mem c ids); try exact H;
    [apply set_insert_sset|apply set_erase_sset]; exact H.
Qed.

Lemma pr_sym x y a b : pr x y a b -> pr x y b a.
Proof. unfold pr. tauto. Qed.
Lemma pr_irrefl x y a : ~ pr x y a a.
Proof. unfold pr. lia. Qed.

Lemma evaluateIds_spec lead cs : forall ids g, NoDup cs -> Forall (gvalid g) cs -> Forall (gvalid g) ids ->
  (lead = true -> forall c, In c cs -> ~ In c ids) ->
  exists g', evaluateIds ids cs lead g = Some (newids lead cs ids, g') /\
    adds g g' (fun x y => lead = true /\ exists c j, In c cs /\ (In j ids \/ In j cs) /\ pr x y c j).
Proof.
  induction cs as [|c cs IH]; intros ids g Hn Hc Hi Hd; cbn [evaluateIds].
  - exists g. split; [reflexivity|]. apply adds_none. intros x y [_ [c [j [[] _]]]].
  - inversion Hc as [|x l Hc0 Hc']; subst. inversion Hn as [|x l Hn0 Hn']; subst.
    unfold evaluateId. rewrite newids_cons. destruct lead.
    + assert (E : set_mem c ids = false).
      { apply set_mem_false. apply Hd; [reflexivity|left; reflexivity]. }
      rewrite E. cbn [negb].
      destruct (evaluateBorderId_spec ids c g Hc0 Hi) as [g1 [E1 A1]]. rewrite E1. cbn [bind].
      destruct (IH (set_insert c ids) g1) as [g' [E' A']].
      * exact Hn'.
      * eapply Forall_impl; [|exact Hc']. intros a. apply (adds_valid _ _ _ _ A1).
      * apply Forall_forall. intros a Ha. apply set_insert_In in Ha. apply (adds_valid _ _ _ _ A1).
        destruct Ha as [->|Ha]; [exact Hc0|]. rewrite Forall_forall in Hi. apply Hi. exact Ha.
      * intros _ d Hd0 Hd1. apply set_insert_In in Hd1. destruct Hd1 as [->|Hd1]; [contradiction|].
        apply (Hd eq_refl d); [right; exact Hd0|exact Hd1].
      * exists g'. split; [exact E'|]. eapply adds_trans; [exact A1|exact A'|]. intros x y. cbn beta. split.
        -- intros [_ [d [j [[->|Hd0] [Hj Hp]]]]].
           ++ destruct Hj as [Hj|[->|Hj]]; [left; exists j; split; assumption|exfalso; eapply pr_irrefl; exact Hp|].
              right. split; [reflexivity|]. exists j, d. split; [exact Hj|]. split; [|apply pr_sym; exact Hp].
              left. apply set_insert_In. left. reflexivity.
           ++ right. split; [reflexivity|]. exists d, j. split; [exact Hd0|]. split; [|exact Hp].
              rewrite set_insert_In. cbn [In] in Hj. intuition congruence.
        -- intros [[j [Hj Hp]]|[_ [d [j [Hd0 [Hj Hp]]]]]].
           ++ split; [reflexivity|]. exists c, j. split; [left; reflexivity|]. split; [left; exact Hj|exact Hp].
           ++ split; [reflexivity|]. exists d, j. split; [right; exact Hd0|]. split; [|exact Hp].
              rewrite set_insert_In in Hj. cbn [In]. intuition congruence.
    + assert (Hno : forall x y, ~ (false = true /\ exists c0 j, In c0 (c :: cs) /\ (In j ids \/ In j (c :: cs)) /\ pr x y c0 j)).
      { intros x y [H _]. discriminate H. }
      destruct (set_mem c ids) eqn:E; cbn [negb bind].
      * destruct (IH (set_erase c ids) g) as [g' [E' A']]; [exact Hn'|exact Hc'| |discriminate|].
        -- apply Forall_forall. intros a Ha. apply set_erase_In in Ha. rewrite Forall_forall in Hi. apply Hi. apply Ha.
        -- exists g'. split; [exact E'|]. eapply adds_iff; [|exact A']. intros x y. cbn beta. split; intros [H _]; discriminate H.
      * destruct (IH ids g) as [g' [E' A']]; [exact Hn'|exact Hc'|exact Hi|discriminate|].
        exists g'. split; [exact E'|]. eapply adds_iff; [|exact A']. intros x y. cbn beta. split; intros [H _]; discriminate H.
Qed.

(* ---------- the loop over the scan map ---------- *)
Definition new_all (lead : bool) (cs : idset) (B : smap idset) : smap idset :=
  map (fun p => (fst p, newids lead cs (snd p))) B.

Lemma new_all_sorted lead cs B : ksorted B -> ksorted (new_all lead cs B).
Proof.
  induction B as [|[k v] B IH]; intros H; [constructor|]. cbn [new_all map fst snd].
  apply ksorted_cons in H. destruct H as [H1 H2]. apply ksorted_cons. split; [apply IH; exact H1|].
  apply Forall_map. eapply Forall_impl; [|exact H2]. intros a Ha. exact Ha.
Qed.
Lemma new_all_klt k lead cs B : klt k B -> klt k (new_all lead cs B).
Proof. intros H. apply Forall_map. eapply Forall_impl; [|exact H]. intros a Ha. exact Ha. Qed.
Lemma new_all_kge k lead cs B : kge k B -> kge k (new_all lead cs B).
Proof. intros H. apply Forall_map. eapply Forall_impl; [|exact H]. intros a Ha. exact Ha. Qed.
Lemma new_all_mval d lead cs B y : mval (newids lead cs d) (new_all lead cs B) y = newids lead cs (mval d B y).
Proof.
  revert d. induction B as [|[k v] B IH]; intros d; cbn [new_all map fst snd mval]; [reflexivity|].
  destruct (k <=? y); [apply IH|reflexivity].
Qed.

Definition vals_valid (g : graph) (m : smap idset) : Prop := Forall (fun p => Forall (gvalid g) (snd p)) m.

Lemma touch_loop_spec lead cs B : forall P hi vh C g fuel, NoDup cs -> Forall (gvalid g) cs ->
  vals_valid g B -> (lead = true -> forall k v c, In (k, v) B -> In c cs -> ~ In c v) ->
  ksorted (P ++ B ++ (hi, vh) :: C) -> (length B < fuel)%nat ->
  exists g', touch_loop fuel (m_begin (B ++ (hi, vh) :: C)) (Some hi) cs lead (P ++ B ++ (hi, vh) :: C) g
    = Some (P ++ new_all lead cs B ++ (hi, vh) :: C, g') /\
    adds g g' (fun x y => lead = true /\ exists k v c j, In (k, v) B /\ In c cs /\ (In j v \/ In j cs) /\ pr x y c j).
Proof.
  induction B as [|[k v] B IH]; intros P hi vh C g fuel Hn Hc Hv Hd Hs Hf.
  - destruct fuel as [|fuel]; [cbn [length] in Hf; lia|]. cbn [app m_begin touch_loop].
    rewrite iter_eqb_refl. exists g. split; [reflexivity|]. apply adds_none. intros x y [_ [k [v [c [j [[] _]]]]]].
  - destruct fuel as [|fuel]; [lia|]. cbn [length] in Hf. cbn [app m_begin touch_loop].
    pose proof (sorted_mid k v P (B ++ (hi, vh) :: C) Hs) as [H1 [H2 [H3 H4]]].
    assert (Hk : k < hi).
    { apply kge_app in H2. destruct H2 as [_ H2]. apply kge_cons in H2. lia. }
    rewrite iter_eqb_false by lia.
    rewrite (m_deref_mid k v P (B ++ (hi, vh) :: C) H1). cbn [bind m_incr].
    rewrite (m_next_mid k v P _ H1). cbn [bind].
    inversion Hv as [|x l Hv0 Hv']; subst. cbn [snd] in Hv0.
    destruct (evaluateIds_spec lead cs v g Hn Hc Hv0) as [g1 [E1 A1]].
    { intros El c Hc0. apply (Hd El k v c); [left; reflexivity|exact Hc0]. }
    rewrite E1. cbn [bind]. rewrite (m_set_mid k v _ P _ H1).
    set (P' := P ++ [(k, newids lead cs v)]).
    assert (EP : P ++ (k, newids lead cs v) :: B ++ (hi, vh) :: C = P' ++ B ++ (hi, vh) :: C).
    { unfold P'. rewrite <- app_assoc. reflexivity. }
    rewrite EP.
    assert (Hs' : ksorted (P' ++ B ++ (hi, vh) :: C)).
    { rewrite <- EP. apply ksorted_app. apply ksorted_app in Hs. destruct Hs as [S1 [S2 S3]].
      split; [exact S1|]. split.
      - apply ksorted_cons. split; assumption.
      - intros a b Ha [Hb|Hb].
        + subst b. exact (S3 a (k, v) Ha (or_introl eq_refl)).
        + apply S3; [exact Ha|right; exact Hb]. }
    destruct (IH P' hi vh C g1 fuel Hn) as [g' [E' A']].
    + eapply Forall_impl; [|exact Hc]. intros a. apply (adds_valid _ _ _ _ A1).
    + eapply Forall_impl; [|exact Hv']. intros a Ha. eapply Forall_impl; [|exact Ha]. intros b. apply (adds_valid _ _ _ _ A1).
    + intros El k0 v0 c Hin Hc0. apply (Hd El k0 v0 c); [right; exact Hin|exact Hc0].
    + exact Hs'.
    + lia.
    + exists g'. split.
      * rewrite E'. unfold P'. rewrite <- app_assoc. reflexivity.
      * eapply adds_trans; [exact A1|exact A'|]. intros x y. cbn beta. split.
        -- intros [El [k0 [v0 [c [j [[Ek|Hin] [Hc0 [Hj Hp]]]]]]]].
           ++ assert (k0 = k /\ v0 = v) as [-> ->] by (split; congruence).
              left. split; [exact El|]. exists c, j. conj.
           ++ right. split; [exact El|]. exists k0, v0, c, j. conj.
        -- intros [[El [c [j [Hc0 [Hj Hp]]]]]|[El [k0 [v0 [c [j [Hin [Hc0 [Hj Hp]]]]]]]]].
           ++ split; [exact El|]. exists k, v, c, j. conj. left. reflexivity.
           ++ split; [exact El|]. exists k0, v0, c, j. conj. right. exact Hin.
Qed.

(* ---------- processInterval ---------- *)
From Verif Require Import ScanStep.

Definition tval (s : bo_state idset) (y : Z) : idset := mval [] (scanData s) y.

Lemma id_drop_lastval A B : lastval [] (A ++ drop_low id_ops A B) = lastval [] (A ++ B).
Proof.
  destruct A as [|p A]; [reflexivity|]. destruct B as [|[k v] B]; [reflexivity|].
  unfold drop_low. destruct (t_eqb id_ops _ v) eqn:E; [|reflexivity].
  apply set_eqb_eq in E. change (lastval [] (p :: A) = v) in E. rewrite !lastval_app, E. reflexivity.
Qed.
Lemma id_drop_mval A B y : ksorted (A ++ B) -> mval [] (A ++ drop_low id_ops A B) y = mval [] (A ++ B) y.
Proof.
  intros Hs.
  destruct A as [|p A]; [reflexivity|]. destruct B as [|[k v] B]; [reflexivity|].
  unfold drop_low. destruct (t_eqb id_ops _ v) eqn:E; [|reflexivity].
  apply set_eqb_eq in E. change (lastval [] (p :: A) = v) in E.
  apply sorted_mid in Hs. destruct Hs as [H1 [H2 _]].
  destruct (Z.leb_spec k y) as [Hk|Hk].
  - rewrite !mval_above by (eapply klt_weaken; [|exact H1]; lia). rewrite E. cbn [mval].
    destruct (Z.leb_spec k y); [reflexivity|lia].
  - rewrite !mval_below; [reflexivity| |].
    + apply kge_cons. split; [lia|]. eapply kge_weaken; [|exact H2]. lia.
    + eapply kge_weaken; [|exact H2]. lia.
Qed.

(* elements of a sorted map are values of the step function and conversely *)
Lemma mval_In d (m : smap idset) k v : ksorted m -> In (k, v) m -> mval d m k = v.
Proof.
  revert d. induction m as [|[k0 v0] m IH]; intros d Hs H; [destruct H|].
  apply ksorted_cons in Hs. destruct Hs as [Hs Hk]. destruct H as [H|H].
  - assert (k0 = k /\ v0 = v) as [-> ->] by (split; congruence). cbn [mval].
    destruct (Z.leb_spec k k); [|lia]. apply mval_below_nil. exact Hk.
  - cbn [mval]. unfold kge in Hk. rewrite Forall_forall in Hk. pose proof (Hk _ H) as Hk0. cbn [fst] in Hk0.
    destruct (Z.leb_spec k0 k); [|lia]. apply IH; assumption.
Qed.
Lemma mval_elem d (m : smap idset) y : mval d m y = d \/ exists k, In (k, mval d m y) m.
Proof.
  revert d. induction m as [|[k0 v0] m IH]; intros d; cbn [mval]; [left; reflexivity|].
  destruct (k0 <=? y); [|left; reflexivity].
  destruct (IH v0) as [E|[k H]].
  - right. exists k0. rewrite E. left. reflexivity.
  - right. exists k. right. exact H.
Qed.
Lemma lastval_elem d (m : smap idset) : m <> [] -> exists k, In (k, lastval d m) m.
Proof.
  revert d. induction m as [|[k0 v0] m IH]; intros d H; [contradiction|]. cbn [lastval].
  destruct m as [|p m].
  - exists k0. left. reflexivity.
  - destruct (IH v0) as [k Hk]; [discriminate|]. exists k. right. exact Hk.
Qed.

Lemma border_high_spec P C high cs lead g : ksorted (P ++ C) -> kge high C ->
  Forall (gvalid g) cs -> vals_valid g C ->
  exists g', border_high high (m_begin C) cs lead (P ++ C) g = Some g' /\
    adds g g' (fun x y => lead = true /\ exists c j v, (exists C', C = (high, v) :: C') /\ In c cs /\ In j v /\ pr x y c j).
Proof.
  intros Hs HC Hc Hv. unfold border_high. destruct C as [|[k v] C].
  - cbn [m_begin]. exists g. split; [reflexivity|]. apply adds_none. intros x y [_ [c [j [v [[C' E] _]]]]]. discriminate E.
  - cbn [m_begin]. pose proof (sorted_mid k v P C Hs) as [H1 _]. rewrite (m_deref_mid k v P C H1). cbn [bind].
    apply kge_cons in HC. destruct (Z.gtb_spec k high) as [Hk|Hk].
    + exists g. split; [reflexivity|]. apply adds_none. intros x y [_ [c [j [v0 [[C' E] _]]]]].
      assert (k = high) by congruence. lia.
    + assert (k = high) by lia. subst k. destruct lead.
      * inversion Hv as [|x l Hv0 _]; subst. cbn [snd] in Hv0.
        destruct (evaluateBorder_spec v cs g Hc Hv0) as [g' [E A]]. exists g'. split; [exact E|].
        eapply adds_iff; [|exact A]. intros x y. cbn beta. split.
        -- intros [c [j [H2 [H3 H4]]]]. split; [reflexivity|]. exists c, j, v. conj. exists C. reflexivity.
        -- intros [_ [c [j [v0 [[C' E0] [H2 [H3 H4]]]]]]]. assert (v0 = v) by congruence. subst v0.
           exists c, j. conj.
      * exists g. split; [reflexivity|]. apply adds_none. intros x y [E _]. discriminate E.
Qed.

Lemma border_low_spec A R low cs lead g : ksorted (A ++ R) -> kge low R -> R <> [] ->
  Forall (gvalid g) cs -> vals_valid g A ->
  exists g', border_low low (m_begin R) cs lead (A ++ R) g = Some g' /\
    adds g g' (fun x y => lead = true /\ exists c j, (exists v R', R = (low, v) :: R') /\ In c cs /\ In j (lastval [] A) /\ pr x y c j).
Proof.
  intros Hs HR Hne Hc Hv. unfold border_low. destruct R as [|[k v] R]; [contradiction Hne; reflexivity|].
  cbn [m_begin]. pose proof (sorted_mid k v A R Hs) as [H1 _]. rewrite (m_deref_mid k v A R H1). cbn [bind].
  apply kge_cons in HR. destruct (Z.gtb_spec k low) as [Hk|Hk].
  - exists g. split; [reflexivity|]. apply adds_none. intros x y [_ [c [j [[v0 [C' E]] _]]]].
    assert (k = low) by congruence. lia.
  - assert (k = low) by lia. subst k. destruct lead; cbn [andb].
    2:{ exists g. split; [reflexivity|]. apply adds_none. intros x y [E _]. discriminate E. }
    destruct (snoc_cases A) as [E|[A' [a [va E]]]].
    + subst A. cbn [app m_begin]. rewrite iter_eqb_refl. cbn [negb]. exists g. split; [reflexivity|].
      apply adds_none. intros x y [_ [c [j [_ [_ [[] _]]]]]].
    + assert (Hb : iter_eqb (Some low) (m_begin (A ++ (low, v) :: R)) = false).
      { subst A. apply (begin_ne_nonempty A' a va ((low, v) :: R)). exact Hs. }
      rewrite Hb. cbn [negb].
      assert (Hd : m_decr (Some low) (A ++ (low, v) :: R) = Some (Some a)).
      { subst A. rewrite <- app_assoc in *. apply (decr_snoc A' a va ((low, v) :: R)). exact Hs. }
      rewrite Hd. cbn [bind].
      assert (Hde : m_deref (Some a) (A ++ (low, v) :: R) = Some (a, va)).
      { subst A. rewrite <- app_assoc in *. apply m_deref_mid. apply sorted_mid in Hs. apply Hs. }
      rewrite Hde. cbn [bind].
      assert (Hlv : lastval [] A = va). { subst A. apply lastval_snoc. }
      assert (Hva : Forall (gvalid g) va).
      { unfold vals_valid in Hv. rewrite Forall_forall in Hv. apply (Hv (a, va)). subst A. apply in_or_app. right. left. reflexivity. }
      destruct (evaluateBorder_spec va cs g Hc Hva) as [g' [E1 A1]]. exists g'. split; [exact E1|].
      eapply adds_iff; [|exact A1]. intros x y. cbn beta. rewrite Hlv. split.
      * intros [c [j [H2 [H3 H4]]]]. split; [reflexivity|]. exists c, j. conj. exists v, R. reflexivity.
      * intros [_ [c [j [_ [H2 [H3 H4]]]]]]. exists c, j. conj.
Qed.

Lemma vals_valid_incl g (m m' : smap idset) : incl m' m -> vals_valid g m -> vals_valid g m'.
Proof. unfold vals_valid. rewrite !Forall_forall. intros H1 H2 p Hp. apply H2. apply H1. exact Hp. Qed.
Lemma vals_valid_adds g g' E m : adds g g' E -> vals_valid g m -> vals_valid g' m.
Proof.
  intros A H. eapply Forall_impl; [|exact H]. intros p Hp. eapply Forall_impl; [|exact Hp].
  intros i. apply (adds_valid _ _ _ _ A).
Qed.
Lemma valid_adds g g' E cs : adds g g' E -> Forall (gvalid g) cs -> Forall (gvalid g') cs.
Proof. intros A H. eapply Forall_impl; [|exact H]. intros i. apply (adds_valid _ _ _ _ A). Qed.

Theorem touch_interval_spec s low high cs (lead : bool) g :
  scan_ok id_ops s low -> low < high -> cs <> [] -> NoDup cs -> Forall (gvalid g) cs ->
  (forall y, Forall (gvalid g) (tval s y)) ->
  (forall y c, low <= y < high -> In c cs -> if lead then ~ In c (tval s y) else In c (tval s y)) ->
  exists s' g', touch_interval s low high cs lead g = Some (s', g') /\ scan_ok id_ops s' high /\
    (forall y i, In i (tval s' y) <->
       if (low <=? y) && (y <? high)
       then (if lead then In i (tval s y) \/ In i cs else In i (tval s y) /\ ~ In i cs)
       else In i (tval s y)) /\
    adds g g' (fun x y => lead = true /\ exists c j, In c cs /\
       (In j cs \/ exists t, low - 1 <= t <= high /\ In j (tval s t)) /\ pr x y c j).
Proof.
  intros [Hs [Hlast Hh]] Hlh Hne Hn Hc Hv Hd.
  destruct (ksorted_split low (scanData s) Hs) as [A [R [E [HA HR]]]].
  assert (SR : ksorted A /\ ksorted R). { rewrite E in Hs. apply ksorted_app in Hs. tauto. }
  destruct SR as [SA SR].
  destruct (ksorted_split high R SR) as [B [C [ER [HB HC]]]].
  rewrite ER in E, HR, SR. apply kge_app in HR. destruct HR as [HBl HCl].
  apply ksorted_app in SR. destruct SR as [SB [SC _]]. clear R ER.
  cbn [t_null id_ops] in Hlast.
  assert (HBC : kge low (B ++ C)) by (apply kge_app; split; assumption).
  assert (HAB : klt high (A ++ B)).
  { apply klt_app. split; [|exact HB]. eapply klt_weaken; [|exact HA]. lia. }
  assert (Hlow1 : tval s (low - 1) = lastval [] A).
  { unfold tval. rewrite E. rewrite mval_below.
    - apply mval_all. replace (low - 1 + 1) with low by lia. exact HA.
    - replace (low - 1 + 1) with low by lia. exact HBC. }
  unfold touch_interval.
  rewrite (lookup_spec s low A (B ++ C) Hs Hh E HA HBC). cbn [bind].
  assert (Hl2 : lookup_ high (mk_bo (scanData s) (m_begin (B ++ C)))
     = Some (m_begin C, mk_bo (scanData s) (m_begin C))).
  { rewrite (lookup_spec (mk_bo (scanData s) (m_begin (B ++ C))) high (A ++ B) C); cbn [scanData].
    - reflexivity.
    - exact Hs.
    - apply (hint_ok_mono _ low); [lia|]. apply (hint_ok_begin _ A); [exact E|exact HA].
    - rewrite <- app_assoc. exact E.
    - exact HAB.
    - exact HC. }
  rewrite Hl2. cbn [bind]. clear Hl2.
  destruct (m_begin (B ++ C)) as [lk|] eqn:Ebeg.
  - (* lowItr is not end() *)
    pose proof Hs as Hs0. rewrite E in Hs0.
    assert (HVm : vals_valid g (scanData s)).
    { apply Forall_forall. intros [k v] Hin. cbn [snd]. rewrite <- (mval_In [] _ k v Hs Hin). apply Hv. }
    assert (HVA : vals_valid g A) by (eapply vals_valid_incl; [|exact HVm]; rewrite E; intros p Hp; apply in_or_app; left; exact Hp).
    assert (HVB : vals_valid g B) by (eapply vals_valid_incl; [|exact HVm]; rewrite E; intros p Hp; apply in_or_app; right; apply in_or_app; left; exact Hp).
    assert (HVC : vals_valid g C) by (eapply vals_valid_incl; [|exact HVm]; rewrite E; intros p Hp; apply in_or_app; right; apply in_or_app; right; exact Hp).
    cbn [scanData].
    destruct (border_high_spec (A ++ B) C high cs lead g) as [g1 [Eg1 A1]];
      [rewrite <- app_assoc; exact Hs0|exact HC|exact Hc|exact HVC|].
    rewrite <- app_assoc, <- E in Eg1. rewrite Eg1. cbn [bind].
    destruct (ensure_high_spec id_ops (A ++ B) C (m_begin C) high) as [h1 He];
      [rewrite <- app_assoc; exact Hs0|exact HAB|exact HC|].
    rewrite <- !app_assoc in He. cbn [t_null id_ops] in He. rewrite E. rewrite He. cbn [bind].
    set (C1 := with_key high (lastval [] (A ++ B)) C) in *.
    assert (SC1 : ksorted C1 /\ kge high C1) by (apply with_key_sorted; assumption).
    destruct SC1 as [SC1 GC1].
    assert (GC1' : kge (low + 1) C1) by (eapply kge_weaken; [|exact GC1]; lia).
    assert (S1 : ksorted (A ++ B ++ C1)).
    { rewrite app_assoc. apply (ksorted_glue high); try assumption.
      apply (ksorted_glue low); assumption. }
    set (B1 := with_key low (lastval [] A) B) in *.
    assert (SB1 : ksorted B1 /\ kge low B1) by (apply with_key_sorted; assumption).
    destruct SB1 as [SB1 GB1].
    assert (LB1 : klt high B1) by (apply with_key_klt; assumption).
    destruct (with_key_cons high (lastval [] (A ++ B)) C) as [vh [C' EC1]]. fold C1 in EC1.
    destruct (with_key_cons low (lastval [] A) B) as [vl [B' EB1]]. fold B1 in EB1.
    assert (Hcase : Some lk = m_begin (B ++ C1) \/
              (B = [] /\ exists k v C'', C = (k, v) :: C'' /\ C1 = (high, lastval [] A) :: C /\ lk = k /\ high < k)).
    { destruct B as [|[b vb] B0].
      - destruct C as [|[k v] C0]; cbn [app m_begin] in Ebeg; [discriminate Ebeg|].
        assert (k = lk) by congruence. subst k. unfold C1. cbn [with_key app].
        destruct (Z.eqb_spec lk high) as [Ek|Ek].
        + left. cbn [m_begin]. reflexivity.
        + right. split; [reflexivity|]. exists lk, v, C0. rewrite app_nil_r. conj; try reflexivity.
          apply kge_cons in HC. lia.
      - left. cbn [app m_begin] in *. symmetry. exact Ebeg. }
    (* the border with the interval below *)
    assert (Hbl : exists g2, border_low low (Some lk) cs lead (A ++ B ++ C1) g1 = Some g2 /\
      adds g1 g2 (fun x y => lead = true /\ exists c j, (exists v B'', B = (low, v) :: B'') /\ In c cs /\ In j (lastval [] A) /\ pr x y c j)).
    { destruct Hcase as [Hcase|[EB [k [v [C'' [EC [EC1' [-> Hk]]]]]]]].
      - rewrite Hcase. destruct (border_low_spec A (B ++ C1) low cs lead g1) as [g2 [Eg2 A2]].
        + exact S1.
        + apply kge_app. split; [exact HBl|]. eapply kge_weaken; [|exact GC1']. lia.
        + rewrite EC1. destruct B; discriminate.
        + exact (valid_adds _ _ _ _ A1 Hc).
        + exact (vals_valid_adds _ _ _ _ A1 HVA).
        + exists g2. split; [exact Eg2|]. eapply adds_iff; [|exact A2]. intros x y. cbn beta. split.
          * intros [El [c [j [[v [R' ER]] [H2 [H3 H4]]]]]]. split; [exact El|]. exists c, j. conj.
            destruct B as [|[b vb] B0].
            -- rewrite EC1 in ER. cbn [app] in ER. assert (high = low) by congruence. lia.
            -- cbn [app] in ER. exists vb, B0. congruence.
          * intros [El [c [j [[v [R' ER]] [H2 [H3 H4]]]]]]. split; [exact El|]. exists c, j. conj.
            exists v, (R' ++ C1). rewrite ER. reflexivity.
      - subst B. cbn [app] in *. unfold border_low. rewrite EC1'.
        assert (Hde : m_deref (Some k) (A ++ (high, lastval [] A) :: C) = Some (k, v)).
        { rewrite EC. change (A ++ (high, lastval [] A) :: (k, v) :: C'') with (A ++ [(high, lastval [] A)] ++ (k, v) :: C'').
          rewrite app_assoc. apply m_deref_mid. apply klt_app. split.
          - eapply klt_weaken; [|exact HA]. lia.
          - apply klt_cons. split; [lia|constructor]. }
        rewrite Hde. cbn [bind]. destruct (Z.gtb_spec k low) as [_|]; [|lia].
        exists g1. split; [reflexivity|]. apply adds_none. intros x y [_ [c [j [[v0 [B'' E0]] _]]]]. discriminate E0. }
    destruct Hbl as [g2 [Eg2 A2]]. cbn [scanData]. rewrite Eg2. cbn [bind].
    (* split *)
    assert (Hsplit : exists h2, split_low id_ops low (Some lk) (mk_bo (A ++ B ++ C1) h1)
              = Some (Some low, mk_bo (A ++ B1 ++ C1) h2)).
    { unfold B1. rewrite <- with_key_app by exact GC1'.
      destruct Hcase as [Hcase|[EB [k [v [C'' [EC [EC1' [Ek _]]]]]]]].
      - rewrite Hcase. apply (split_low_spec id_ops).
        + exact S1.
        + exact HA.
        + apply kge_app. split; [exact HBl|]. eapply kge_weaken; [|exact GC1']. lia.
        + rewrite EC1. destruct B; discriminate.
      - subst B. cbn [app] in *. rewrite EC1' in *.
        replace (Some lk) with (m_begin C) by (rewrite EC; cbn [m_begin]; congruence).
        destruct (split_low_after_high id_ops A C h1 low high (lastval [] A) S1 HA Hlh) as [h2 Hsp].
        + rewrite EC. discriminate.
        + reflexivity.
        + exists h2. rewrite Hsp. cbn [with_key].
          destruct (Z.eqb_spec high low) as [E1|E1]; [lia|]. reflexivity. }
    destruct Hsplit as [h2 Hsplit]. rewrite Hsplit. cbn [bind scanData].
    assert (S2 : ksorted (A ++ B1 ++ C1)).
    { apply (ksorted_glue low); try assumption.
      - apply (ksorted_glue high); assumption.
      - apply kge_app. split; [exact GB1|]. eapply kge_weaken; [|exact GC1']. lia. }
    assert (HB1f : forall y, mval (lastval [] A) B1 y = mval (lastval [] A) B y).
    { intros y. apply with_key_mval. exact HBl. }
    assert (Hin : forall y, low <= y < high -> tval s y = mval (lastval [] A) B1 y).
    { intros y Hy. rewrite HB1f. unfold tval. rewrite E.
      rewrite mval_above by (eapply klt_weaken; [|exact HA]; lia).
      apply mval_below. eapply kge_weaken; [|exact HC]. lia. }
    assert (HB1v : forall k v, In (k, v) B1 -> low <= k < high /\ tval s k = v).
    { intros k v Hin0. unfold kge in GB1. unfold klt in LB1. rewrite Forall_forall in GB1, LB1.
      pose proof (GB1 _ Hin0) as Hk1. pose proof (LB1 _ Hin0) as Hk2. cbn [fst] in Hk1, Hk2.
      split; [lia|]. rewrite Hin by lia. apply mval_In; assumption. }
    destruct (touch_loop_spec lead cs B1 A high vh C' g2 (S (length (A ++ B1 ++ C1)))) as [g3 [Eg3 A3]].
    { exact Hn. }
    { exact (valid_adds _ _ _ _ A2 (valid_adds _ _ _ _ A1 Hc)). }
    { apply (vals_valid_adds _ _ _ _ A2). apply (vals_valid_adds _ _ _ _ A1).
      apply Forall_forall. intros [k v] Hin0. cbn [snd]. destruct (HB1v k v Hin0) as [_ <-]. apply Hv. }
    { intros El k v c Hin0 Hc0. destruct (HB1v k v Hin0) as [Hk <-]. specialize (Hd k c Hk Hc0). rewrite El in Hd. exact Hd. }
    { rewrite <- EC1. exact S2. }
    { rewrite !app_length. lia. }
    rewrite <- EC1 in Eg3.
    assert (Hbb : m_begin (B1 ++ C1) = Some low) by (rewrite EB1; reflexivity).
    rewrite Hbb in Eg3. rewrite Eg3. cbn [bind].
    assert (S3 : ksorted (A ++ new_all lead cs B1 ++ C1)).
    { apply (ksorted_glue low); try assumption.
      - apply (ksorted_glue high); try assumption.
        + apply new_all_sorted. exact SB1.
        + apply new_all_klt. exact LB1.
      - apply kge_app. split; [apply new_all_kge; exact GB1|]. eapply kge_weaken; [|exact GC1']. lia. }
    set (B2 := drop_low id_ops A (new_all lead cs B1)).
    assert (Hml : merge_low id_ops (Some low) (A ++ new_all lead cs B1 ++ C1) = Some (A ++ B2 ++ C1)).
    { unfold B2. rewrite EB1 in *. cbn [new_all map fst snd app] in *.
      rewrite merge_low_spec by exact S3. rewrite app_comm_cons. rewrite drop_low_app. reflexivity. }
    rewrite Hml. cbn [bind].
    assert (S4 : ksorted ((A ++ B2) ++ C1)).
    { rewrite <- app_assoc. unfold B2. rewrite EB1 in *. cbn [new_all map fst snd app] in *.
      rewrite <- drop_low_app. apply ksorted_drop. exact S3. }
    assert (Hne2 : A ++ B2 <> []).
    { unfold B2. rewrite EB1. cbn [new_all map fst snd]. apply drop_low_nonempty. }
    rewrite app_assoc. pose proof S4 as S4'. rewrite EC1 in S4'.
    pose proof (merge_high_spec id_ops _ _ _ _ S4' Hne2) as Hmh. rewrite <- EC1 in Hmh. rewrite Hmh. cbn [bind].
    set (C2 := drop_low id_ops (A ++ B2) C1) in *.
    assert (S5 : ksorted ((A ++ B2) ++ C2)) by (apply ksorted_drop; exact S4).
    assert (LA : klt high A) by (eapply klt_weaken; [|exact HA]; lia).
    assert (L2 : klt high (A ++ B2)).
    { apply klt_app. split; [exact LA|]. unfold B2. apply drop_low_klt. apply new_all_klt. exact LB1. }
    assert (SAB1 : ksorted (A ++ new_all lead cs B1)).
    { apply (ksorted_glue low); try assumption; [apply new_all_sorted|apply new_all_kge]; assumption. }
    exists (mk_bo ((A ++ B2) ++ C2) (m_begin C2)), g3. split; [reflexivity|]. split; [|split].
    + split; [exact S5|]. cbn [scanData t_null id_ops]. split.
      * unfold C2. rewrite id_drop_lastval. rewrite lastval_app, EC1.
        rewrite (lastval_nonempty _ (lastval [] (A ++ B))), <- EC1.
        unfold C1. rewrite with_key_lastval. rewrite <- lastval_app, <- app_assoc, <- E. exact Hlast.
      * apply (hint_ok_begin _ (A ++ B2)); [reflexivity|exact L2].
    + intros y i. unfold tval at 1. cbn [scanData]. unfold C2. rewrite (id_drop_mval _ _ _ S4).
      destruct (Z.leb_spec low y) as [Hy1|Hy1]; cbn [andb].
      * destruct (Z.ltb_spec y high) as [Hy2|Hy2].
        -- rewrite mval_below by (eapply kge_weaken; [|exact GC1]; lia).
           unfold B2. rewrite (id_drop_mval _ _ _ SAB1).
           rewrite mval_above by (eapply klt_weaken; [|exact HA]; lia).
           rewrite Hin by lia.
           assert (Em : mval (lastval [] A) (new_all lead cs B1) y = newids lead cs (mval (lastval [] A) B1 y)).
           { rewrite <- new_all_mval. rewrite EB1. cbn [new_all map fst snd]. apply mval_head_ge. exact Hy1. }
           rewrite Em. apply newids_In.
        -- rewrite (mval_above _ (A ++ B2) C1) by (eapply klt_weaken; [|exact L2]; lia).
           unfold tval. rewrite E, app_assoc.
           rewrite (mval_above _ (A ++ B) C) by (eapply klt_weaken; [|exact HAB]; lia).
           rewrite <- (with_key_mval high (lastval [] (A ++ B)) C y HC). fold C1. rewrite EC1.
           rewrite (mval_head_ge _ (lastval [] (A ++ B))) by lia. reflexivity.
      * rewrite mval_below by (eapply kge_weaken; [|exact GC1]; lia).
        rewrite mval_below.
        2:{ unfold B2. apply drop_low_kge. apply new_all_kge. eapply kge_weaken; [|exact GB1]. lia. }
        unfold tval. rewrite E. rewrite mval_below by (eapply kge_weaken; [|exact HBC]; lia). reflexivity.
    + assert (A12 := adds_trans _ _ _ _ _ _ A1 A2 (fun x y => iff_refl _)). cbn beta in A12.
      eapply adds_trans; [exact A12|exact A3|]. intros x y. cbn beta. split.
      * intros [El [c [j [Hc0 [Hj Hp]]]]].
        assert (HjB1 : (In j cs \/ exists k v, In (k, v) B1 /\ In j v) ->
          lead = true /\ exists k v c0 j0, In (k, v) B1 /\ In c0 cs /\ (In j0 v \/ In j0 cs) /\ pr x y c0 j0).
        { intros [H|[k [v [H1 H2]]]]; split; try exact El.
          - exists low, vl, c, j. conj; [rewrite EB1; left; reflexivity|right; exact H].
          - exists k, v, c, j. conj. left. exact H2. }
        destruct Hj as [Hj|[t [Ht Hj]]]; [right; apply HjB1; left; exact Hj|].
        destruct (Z.eqb_spec t (low - 1)) as [Et|Et].
        -- rewrite Et, Hlow1 in Hj. destruct B as [|[b vb] B0].
           ++ right. apply HjB1. right. exists low, (lastval [] A). split; [left; reflexivity|exact Hj].
           ++ destruct (Z.eqb_spec b low) as [Eb|Eb].
              ** subst b. left. right. split; [exact El|]. exists c, j. conj. exists vb, B0. reflexivity.
              ** right. apply HjB1. right. exists low, (lastval [] A). split; [|exact Hj].
                 unfold B1. cbn [with_key]. destruct (Z.eqb_spec b low); [contradiction|]. left. reflexivity.
        -- destruct (Z.eqb_spec t high) as [Eth|Eth].
           ++ subst t. unfold tval in Hj. rewrite E, app_assoc in Hj.
              rewrite (mval_above _ (A ++ B) C) in Hj by (eapply klt_weaken; [|exact HAB]; lia).
              assert (Hlv : In j (lastval [] (A ++ B)) -> lead = true /\ exists k v c0 j0, In (k, v) B1 /\ In c0 cs /\ (In j0 v \/ In j0 cs) /\ pr x y c0 j0).
              { intros Hj0. apply HjB1. right. rewrite lastval_app in Hj0.
                assert (El1 : lastval (lastval [] A) B1 = lastval (lastval [] A) B) by apply with_key_lastval.
                rewrite <- El1 in Hj0. destruct (lastval_elem (lastval [] A) B1) as [k Hk]; [rewrite EB1; discriminate|].
                exists k, (lastval (lastval [] A) B1). split; assumption. }
              destruct C as [|[k v] C0]; [right; apply Hlv; exact Hj|]. cbn [mval] in Hj.
              apply kge_cons in HC. destruct (Z.leb_spec k high) as [Hk|Hk]; [|right; apply Hlv; exact Hj].
              assert (k = high) by lia. subst k.
              rewrite mval_below_nil in Hj by (apply ksorted_cons in SC; apply SC).
              left. left. split; [exact El|]. exists c, j, v. conj. exists C0. reflexivity.
           ++ right. apply HjB1. right. rewrite Hin in Hj by lia.
              rewrite EB1 in Hj. rewrite (mval_head_ge _ vl) in Hj by lia.
              destruct (mval_elem vl ((low, vl) :: B') t) as [Em|[k Hk]].
              ** exists low, vl. split; [rewrite EB1; left; reflexivity|]. rewrite Em in Hj. exact Hj.
              ** exists k, (mval vl ((low, vl) :: B') t). split; [rewrite EB1; exact Hk|exact Hj].
      * intros [[[El [c [j [v [[C0 EC] [H2 [H3 H4]]]]]]]|[El [c [j [_ [H2 [H3 H4]]]]]]]|[El [k [v [c [j [H1 [H2 [H3 H4]]]]]]]]].
        -- split; [exact El|]. exists c, j. conj. right. exists high. split; [lia|].
           unfold tval. rewrite E, app_assoc. rewrite (mval_above _ (A ++ B) C) by (eapply klt_weaken; [|exact HAB]; lia).
           rewrite EC. cbn [mval]. destruct (Z.leb_spec high high); [|lia].
           rewrite mval_below_nil; [exact H3|]. rewrite EC in SC. apply ksorted_cons in SC. apply SC.
        -- split; [exact El|]. exists c, j. conj. right. exists (low - 1). split; [lia|]. rewrite Hlow1. exact H3.
        -- split; [exact El|]. exists c, j. conj. destruct H3 as [H3|H3]; [|left; exact H3].
           right. exists k. destruct (HB1v k v H1) as [Hk <-]. split; [lia|exact H3].
  - (* all keys are below low *)
    assert (HBe : B = [] /\ C = []).
    { destruct B as [|[b vb] B0]; [|discriminate Ebeg]. destruct C as [|[c vc0] C0]; [|discriminate Ebeg].
      split; reflexivity. }
    destruct HBe as [EB EC]. subst B C. cbn [app] in *. rewrite !app_nil_r in *.
    rewrite E in Hlast.
    assert (Hnil : forall y, low - 1 <= y -> tval s y = []).
    { intros y Hy. unfold tval. rewrite E. rewrite mval_all by (eapply klt_weaken; [|exact HA]; lia). exact Hlast. }
    destruct lead.
    2:{ destruct cs as [|c cs]; [contradiction Hne; reflexivity|].
        specialize (Hd low c ltac:(lia) (or_introl eq_refl)). cbn beta iota in Hd. rewrite Hnil in Hd by lia. destruct Hd. }
    unfold insert_. cbn [nextItr scanData m_begin m_valid bind]. rewrite E.
    pose proof (m_insert_mid low cs A [] HA) as Hi1. rewrite app_nil_r in Hi1.
    rewrite Hi1 by constructor.
    destruct (evaluateBorder_spec cs cs g Hc Hc) as [g1 [Eg1 A1]]. rewrite Eg1. cbn [bind nextItr scanData m_valid].
    rewrite (m_find_mid low cs A [] HA). cbn [bind].
    pose proof (m_insert_mid high [] (A ++ [(low, cs)]) []) as Hi2. rewrite app_nil_r in Hi2.
    rewrite Hi2; [|apply klt_app; split; [exact HAB|apply klt_cons; split; [exact Hlh|constructor]]|constructor].
    eexists _, g1. split; [reflexivity|]. split; [|split].
    + split; [|split]; cbn [scanData].
      * rewrite <- app_assoc. cbn [app].
        apply (ksorted_glue low); try assumption.
        -- apply ksorted_cons. split; [apply ksorted_cons; split; constructor|]. apply kge_cons. split; [lia|constructor].
        -- apply kge_cons. split; [lia|]. apply kge_cons. split; [lia|constructor].
      * apply lastval_snoc.
      * unfold hint_ok. cbn [nextItr scanData]. exists (A ++ [(low, cs)]), [], []. split; [reflexivity|].
        apply klt_app. split; [exact HAB|]. apply klt_cons. split; [exact Hlh|constructor].
    + intros y i. unfold tval at 1. cbn [scanData]. rewrite <- app_assoc. cbn [app].
      destruct (Z.leb_spec low y) as [Hy1|Hy1]; cbn [andb].
      * rewrite mval_above by (eapply klt_weaken; [|exact HA]; lia). rewrite Hlast. cbn [mval].
        destruct (Z.leb_spec low y); [|lia]. rewrite (Hnil y) by lia.
        destruct (Z.leb_spec high y), (Z.ltb_spec y high); try lia; cbn [In]; tauto.
      * rewrite mval_below by (apply kge_cons; split; [lia|]; apply kge_cons; split; [lia|constructor]).
        unfold tval. rewrite E. reflexivity.
    + eapply adds_iff; [|exact A1]. intros x y. cbn beta. split.
      * intros [c [j [H1 [H2 H3]]]]. split; [reflexivity|]. exists c, j. conj. left. exact H2.
      * intros [_ [c [j [H1 [H2 H3]]]]]. exists c, j. conj. destruct H2 as [H2|[t [Ht H2]]]; [exact H2|].
        rewrite Hnil in H2 by lia. destruct H2.
Qed.
