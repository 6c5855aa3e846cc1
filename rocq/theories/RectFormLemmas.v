(* The ordered set of scan rectangles and the loops of processEdge_. *)
From Verif Require Import Base Scan90Spec Set90Spec Set90Model RectFormModel.

Lemma sr_less_spec a b : sr_less a b = true <->
  s_lo a < s_lo b \/ s_lo a = s_lo b /\ (s_ml a < s_ml b \/ s_ml a = s_ml b /\
    (s_hi a < s_hi b \/ s_hi a = s_hi b /\ s_mh a < s_mh b)).
Proof.
  unfold sr_less.
  destruct (s_lo a >? s_lo b) eqn:E1; [split; [discriminate|lia]|].
  destruct (s_lo a =? s_lo b) eqn:E2; [|split; [lia|reflexivity]].
  destruct (s_ml a >? s_ml b) eqn:E3; [split; [discriminate|lia]|].
  destruct (s_ml a =? s_ml b) eqn:E4; [|split; [lia|reflexivity]].
  destruct (s_hi a >? s_hi b) eqn:E5; [split; [discriminate|lia]|].
  destruct (s_hi a =? s_hi b) eqn:E6; [|split; [lia|reflexivity]].
  lia.
Qed.
Lemma sr_ext a b : s_lo a = s_lo b -> s_hi a = s_hi b -> s_ml a = s_ml b -> s_mh a = s_mh b -> a = b.
Proof. destruct a as [p q r s], b as [p' q' r' s']. cbn. intros; subst; reflexivity. Qed.
Lemma sr_total a b : sr_less a b = false -> sr_less b a = false -> a = b.
Proof.
  intros H1 H2. pose proof (sr_less_spec a b) as Q1. pose proof (sr_less_spec b a) as Q2.
  rewrite H1 in Q1. rewrite H2 in Q2.
  assert (N1 : ~ (s_lo a < s_lo b \/ s_lo a = s_lo b /\ (s_ml a < s_ml b \/ s_ml a = s_ml b /\
    (s_hi a < s_hi b \/ s_hi a = s_hi b /\ s_mh a < s_mh b)))) by (intros K; apply Q1 in K; discriminate K).
  assert (N2 : ~ (s_lo b < s_lo a \/ s_lo b = s_lo a /\ (s_ml b < s_ml a \/ s_ml b = s_ml a /\
    (s_hi b < s_hi a \/ s_hi b = s_hi a /\ s_mh b < s_mh a)))) by (intros K; apply Q2 in K; discriminate K).
  apply sr_ext; lia.
Qed.
Lemma sr_less_irrefl a : sr_less a a = false.
Proof. destruct (sr_less a a) eqn:E; [|reflexivity]. apply sr_less_spec in E. lia. Qed.
Lemma sr_less_trans a b c : sr_less a b = true -> sr_less b c = true -> sr_less a c = true.
Proof. rewrite !sr_less_spec. lia. Qed.
Lemma sr_eqb_spec a b : sr_eqb a b = true <-> a = b.
Proof.
  unfold sr_eqb. split.
  - intros H. apply sr_ext; lia.
  - intros <-. lia.
Qed.

Definition sr_lt (a b : srect) : Prop := sr_less a b = true.
Definition srsorted (S : list srect) : Prop := StronglySorted sr_lt S.

Lemma insert_in r S : srsorted S -> forall x, In x (set_insert r S) <-> x = r \/ In x S.
Proof.
  induction 1 as [|s S HS IH HF]; intros x; cbn [set_insert].
  - cbn [In]. intuition congruence.
  - destruct (sr_less r s) eqn:E1; [cbn [In]; intuition congruence|].
    destruct (sr_less s r) eqn:E2.
    + cbn [In]. rewrite IH. intuition congruence.
    + pose proof (sr_total _ _ E1 E2) as ->. cbn [In]. intuition congruence.
Qed.
Lemma insert_sorted r S : srsorted S -> srsorted (set_insert r S).
Proof.
  induction 1 as [|s S HS IH HF]; cbn [set_insert].
  - repeat constructor.
  - destruct (sr_less r s) eqn:E1.
    + constructor; [constructor; assumption|]. constructor; [exact E1|].
      eapply Forall_impl; [|exact HF]. intros a Ha. exact (sr_less_trans _ _ _ E1 Ha).
    + destruct (sr_less s r) eqn:E2; [|constructor; assumption].
      constructor; [exact IH|]. apply Forall_forall. intros x Hx.
      apply (insert_in r S HS) in Hx. destruct Hx as [->|Hx]; [exact E2|].
      rewrite Forall_forall in HF. exact (HF x Hx).
Qed.
Lemma erase_spec r S : srsorted S -> In r S ->
  exists S', set_erase r S = Some S' /\ srsorted S' /\ (forall x, In x S' <-> In x S /\ x <> r).
Proof.
  induction 1 as [|s S HS IH HF]; intros Hin; [contradiction|]. cbn [set_erase].
  rewrite Forall_forall in HF.
  destruct (sr_eqb r s) eqn:E.
  - apply sr_eqb_spec in E. subst s. exists S. split; [reflexivity|]. split; [exact HS|].
    intros x. cbn [In]. split.
    + intros Hx. split; [right; exact Hx|]. intros ->. specialize (HF r Hx). unfold sr_lt in HF.
      rewrite sr_less_irrefl in HF. discriminate HF.
    + intros [[<-|Hx] N]; [congruence|exact Hx].
  - destruct Hin as [->|Hin]; [exfalso; assert (sr_eqb r r = true) by (apply sr_eqb_spec; reflexivity); congruence|].
    destruct (IH Hin) as [S2 [E2 [HS2 HI]]]. rewrite E2. cbn [bind]. exists (s :: S2).
    split; [reflexivity|]. split.
    + constructor; [exact HS2|]. apply Forall_forall. intros x Hx. apply HF, HI, Hx.
    + intros x. cbn [In]. rewrite HI. split.
      * intros [<-|[H1 H2]]; [|tauto]. split; [tauto|]. intros ->.
        assert (sr_eqb r r = true) by (apply sr_eqb_spec; reflexivity). congruence.
      * tauto.
Qed.
Lemma find_first (p : srect -> bool) S : srsorted S ->
  match find p S with
  | Some s => In s S /\ p s = true /\ forall t, In t S -> p t = true -> t = s \/ sr_less s t = true
  | None => forall t, In t S -> p t = false
  end.
Proof.
  induction 1 as [|s S HS IH HF]; cbn [find]; [intros t []|].
  rewrite Forall_forall in HF.
  destruct (p s) eqn:E.
  - split; [left; reflexivity|]. split; [exact E|]. intros t [<-|Ht] _; [left; reflexivity|right; apply HF, Ht].
  - destruct (find p S) as [s'|].
    + destruct IH as [I1 [I2 I3]]. split; [right; exact I1|]. split; [exact I2|].
      intros t [<-|Ht] Hp; [congruence|exact (I3 t Ht Hp)].
    + intros t [<-|Ht]; [exact E|exact (IH t Ht)].
Qed.
Lemma last_opt_spec S : srsorted S ->
  match last_opt S with
  | Some s => In s S /\ forall t, In t S -> t = s \/ sr_less t s = true
  | None => S = []
  end.
Proof.
  induction 1 as [|s S HS IH HF]; [reflexivity|]. rewrite Forall_forall in HF.
  destruct S as [|s2 S2].
  - cbn [last_opt]. split; [left; reflexivity|]. intros t [<-|[]]. left; reflexivity.
  - change (last_opt (s :: s2 :: S2)) with (last_opt (s2 :: S2)).
    destruct (last_opt (s2 :: S2)) as [l|]; [|discriminate IH].
    destruct IH as [I1 I2]. split; [right; exact I1|]. intros t [<-|Ht]; [|exact (I2 t Ht)].
    right. apply HF, I1.
Qed.
Lemma filter_sorted (p : srect -> bool) S : srsorted S -> srsorted (filter p S).
Proof.
  induction 1 as [|s S HS IH HF]; cbn [filter]; [constructor|].
  destruct (p s); [|exact IH]. constructor; [exact IH|]. apply Forall_forall. intros x Hx.
  apply filter_In in Hx. rewrite Forall_forall in HF. apply HF, Hx.
Qed.

(* ---------- counting ---------- *)
Definition inb (lo hi y : Z) : bool := (lo <=? y) && (y <? hi).
Fixpoint out_sum (l : list srect) (x y : Z) : Z :=
  match l with
  | [] => 0
  | r :: l' => b2z (inb (s_ml r) (s_mh r) x && inb (s_lo r) (s_hi r) y) + out_sum l' x y
  end.
Fixpoint scan_sum (l : list srect) (x y : Z) : Z :=
  match l with
  | [] => 0
  | r :: l' => b2z ((s_ml r <=? x) && inb (s_lo r) (s_hi r) y) + scan_sum l' x y
  end.
Lemma scan_sum_insert r S x y : x < s_ml r -> scan_sum (set_insert r S) x y = scan_sum S x y.
Proof.
  intros H. assert (Z0 : b2z ((s_ml r <=? x) && inb (s_lo r) (s_hi r) y) = 0).
  { replace (s_ml r <=? x) with false by lia. reflexivity. }
  induction S as [|s S IH]; cbn [set_insert scan_sum]; [lia|].
  destruct (sr_less r s); [cbn [scan_sum]; lia|]. destruct (sr_less s r); cbn [scan_sum]; lia.
Qed.
Lemma scan_sum_erase r S S' x y : set_erase r S = Some S' ->
  scan_sum S x y = b2z ((s_ml r <=? x) && inb (s_lo r) (s_hi r) y) + scan_sum S' x y.
Proof.
  revert S'. induction S as [|s S IH]; intros S'; cbn [set_erase]; [discriminate|].
  destruct (sr_eqb r s) eqn:E.
  - intros H. injection H as <-. apply sr_eqb_spec in E. subst s. reflexivity.
  - destruct (set_erase r S) as [S2|] eqn:E2; cbn [bind]; [|discriminate].
    intros H. injection H as <-. cbn [scan_sum]. rewrite (IH S2 eq_refl). lia.
Qed.
Lemma out_sum_write cc r out x y : x < cc ->
  out_sum (write_out cc r out) x y = out_sum out x y + b2z ((s_ml r <=? x) && inb (s_lo r) (s_hi r) y).
Proof.
  intros H. unfold write_out. destruct (s_ml r <? cc) eqn:E.
  - cbn [out_sum s_ml s_mh s_lo s_hi]. unfold inb at 1. replace (x <? cc) with true by lia.
    rewrite andb_true_r. lia.
  - replace (s_ml r <=? x) with false by lia. cbn [andb b2z]. lia.
Qed.

(* ---------- separated sets ---------- *)
Definition apart (a b : srect) : Prop := s_hi a < s_lo b \/ s_hi b < s_lo a.
Record sepset (S : list srect) : Prop := {
  ss_sorted : srsorted S;
  ss_ne : forall s, In s S -> s_lo s < s_hi s;
  ss_sep : forall s t, In s S -> In t S -> s = t \/ apart s t }.

Lemma sep_less S s t : sepset S -> In s S -> In t S -> (sr_less s t = true <-> s_lo s < s_lo t).
Proof.
  intros H Hs Ht. pose proof (ss_ne S H s Hs) as N1. pose proof (ss_ne S H t Ht) as N2.
  rewrite sr_less_spec. destruct (ss_sep S H s t Hs Ht) as [->|A]; [lia|]. unfold apart in A. lia.
Qed.
Lemma sep_lo_inj S s t : sepset S -> In s S -> In t S -> s_lo s = s_lo t -> s = t.
Proof.
  intros H Hs Ht E. pose proof (ss_ne S H s Hs) as N1. pose proof (ss_ne S H t Ht) as N2.
  destruct (ss_sep S H s t Hs Ht) as [->|A]; [reflexivity|]. unfold apart in A. lia.
Qed.
Lemma sep_insert S r : sepset S -> s_lo r < s_hi r -> (forall s, In s S -> apart s r) -> sepset (set_insert r S).
Proof.
  intros H N A. pose proof (ss_sorted S H) as HS. split.
  - apply insert_sorted, HS.
  - intros s Hs. apply insert_in in Hs; [|exact HS]. destruct Hs as [->|Hs]; [exact N|exact (ss_ne S H s Hs)].
  - intros s t Hs Ht. apply insert_in in Hs; [|exact HS]. apply insert_in in Ht; [|exact HS].
    destruct Hs as [->|Hs], Ht as [->|Ht].
    + left; reflexivity.
    + right. specialize (A t Ht). unfold apart in *. lia.
    + right. exact (A s Hs).
    + exact (ss_sep S H s t Hs Ht).
Qed.
Lemma sep_erase S r : sepset S -> In r S -> exists S', set_erase r S = Some S' /\ sepset S' /\
  (forall x, In x S' <-> In x S /\ x <> r).
Proof.
  intros H Hr. destruct (erase_spec r S (ss_sorted S H) Hr) as [S' [E [HS HI]]].
  exists S'. split; [exact E|]. split; [|exact HI]. split.
  - exact HS.
  - intros s Hs. apply HI in Hs. apply (ss_ne S H), Hs.
  - intros s t Hs Ht. apply HI in Hs. apply HI in Ht. apply (ss_sep S H); [apply Hs|apply Ht].
Qed.

(* the iterator is the first element whose low end is greater than k *)
Definition at_ (S : list srect) (it : option srect) (k : Z) : Prop :=
  match it with
  | Some r => In r S /\ k < s_lo r /\ forall s, In s S -> k < s_lo s -> s_lo r <= s_lo s
  | None => forall s, In s S -> s_lo s <= k
  end.
Lemma next_at S r : sepset S -> In r S -> at_ S (set_next r S) (s_lo r).
Proof.
  intros H Hr. unfold set_next. pose proof (find_first (sr_less r) S (ss_sorted S H)) as F.
  destruct (find (sr_less r) S) as [s|]; cbn [at_].
  - destruct F as [F1 [F2 F3]]. split; [exact F1|]. split; [apply (sep_less S r s H Hr F1), F2|].
    intros t Ht L. apply (sep_less S r t H Hr Ht) in L. destruct (F3 t Ht L) as [->|K]; [lia|].
    apply (sep_less S s t H F1 Ht) in K. lia.
  - intros t Ht. specialize (F t Ht). destruct (Z_le_gt_dec (s_lo t) (s_lo r)) as [L|L]; [exact L|].
    assert (K : sr_less r t = true) by (apply (sep_less S r t H Hr Ht); lia). congruence.
Qed.
(* elements up to k may come and go *)
Lemma at_change S S' it k : at_ S it k ->
  (forall s, k < s_lo s -> (In s S <-> In s S')) -> at_ S' it k.
Proof.
  intros A E. destruct it as [r|]; cbn [at_] in *.
  - destruct A as [A1 [A2 A3]]. split; [apply E; assumption|]. split; [exact A2|].
    intros s Hs L. apply A3; [apply E; assumption|exact L].
  - intros s Hs. destruct (Z_le_gt_dec (s_lo s) k) as [L|L]; [exact L|].
    assert (K : In s S) by (apply E; [lia|exact Hs]). specialize (A s K). lia.
Qed.

Definition count_gt (k : Z) (S : list srect) : nat := length (filter (fun s => s_lo s >? k) S).
Lemma count_gt_le k k' S : k <= k' -> (count_gt k' S <= count_gt k S)%nat.
Proof.
  intros L. unfold count_gt. induction S as [|s S IH]; cbn [filter length]; [lia|].
  destruct (s_lo s >? k') eqn:E1.
  - replace (s_lo s >? k) with true by lia. cbn [length]. lia.
  - destruct (s_lo s >? k); cbn [length]; lia.
Qed.
Lemma count_gt_lt k r S : In r S -> k < s_lo r -> (count_gt (s_lo r) S < count_gt k S)%nat.
Proof.
  intros Hr L. unfold count_gt. induction S as [|s S IH]; [contradiction|]. cbn [filter].
  destruct Hr as [->|Hr].
  - replace (s_lo r >? s_lo r) with false by lia. replace (s_lo r >? k) with true by lia. cbn [length].
    assert (L2 : k <= s_lo r) by lia. pose proof (count_gt_le k (s_lo r) S L2) as Q. unfold count_gt in Q. lia.
  - specialize (IH Hr). destruct (s_lo s >? s_lo r) eqn:E1.
    + replace (s_lo s >? k) with true by lia. cbn [length]. lia.
    + destruct (s_lo s >? k); cbn [length]; lia.
Qed.
Lemma count_gt_all k S : (count_gt k S <= length S)%nat.
Proof. unfold count_gt. induction S as [|s S IH]; cbn [filter length]; [lia|]. destruct (s_lo s >? k); cbn [length]; lia. Qed.
Lemma sorted_nodup S : srsorted S -> NoDup S.
Proof.
  induction 1 as [|s S HS IH HF]; constructor; [|exact IH]. intros Hin. rewrite Forall_forall in HF.
  specialize (HF s Hin). unfold sr_lt in HF. rewrite sr_less_irrefl in HF. discriminate HF.
Qed.
Lemma count_gt_eq k S S' : srsorted S -> srsorted S' -> (forall s, k < s_lo s -> (In s S <-> In s S')) ->
  (count_gt k S' <= count_gt k S)%nat.
Proof.
  intros H H' E. unfold count_gt. apply NoDup_incl_length.
  - apply sorted_nodup, filter_sorted, H'.
  - intros s Hs. apply filter_In in Hs. apply filter_In. split; [|apply Hs]. apply E; [|apply Hs].
    destruct Hs as [_ Hs]. lia.
Qed.

(* ---------- the first loop ---------- *)
Lemma is_begin_spec S r : sepset S -> In r S -> is_begin (Some r) S = false -> exists s, In s S /\ sr_less s r = true.
Proof.
  intros H Hr B. destruct S as [|s S]; [contradiction|]. cbn [is_begin] in B.
  exists s. split; [left; reflexivity|]. destruct Hr as [->|Hr].
  - assert (sr_eqb r r = true) by (apply sr_eqb_spec; reflexivity). congruence.
  - pose proof (ss_sorted _ H) as HS. inversion HS as [|? ? _ HF]; subst. rewrite Forall_forall in HF. exact (HF r Hr).
Qed.
Lemma is_begin_true S r : sepset S -> is_begin (Some r) S = true -> forall s, In s S -> s_lo r <= s_lo s.
Proof.
  intros H B. destruct S as [|s0 S]; [discriminate B|]. cbn [is_begin] in B. apply sr_eqb_spec in B. subst s0.
  intros s [<-|Hs]; [lia|]. pose proof (ss_sorted _ H) as HS. inversion HS as [|? ? _ HF]; subst.
  rewrite Forall_forall in HF. specialize (HF s Hs).
  apply (sep_less _ r s H) in HF; [lia|left; reflexivity|right; exact Hs].
Qed.

Definition below (S : list srect) (it : option srect) : nat :=
  match it with None => length S | Some r => length (filter (fun s => sr_less s r) S) end.
Lemma below_prev S it r : srsorted S -> (match it with Some q => In q S | None => True end) ->
  set_prev it S = Some r -> (below S (Some r) < below S it)%nat.
Proof.
  intros HS Hit E. cbn [below].
  assert (Hr : In r S /\ match it with Some q => sr_less r q = true | None => True end).
  { destruct it as [q|]; cbn [set_prev] in E.
    - pose proof (last_opt_spec _ (filter_sorted (fun s => sr_less s q) S HS)) as L. rewrite E in L.
      destruct L as [L _]. apply filter_In in L. exact L.
    - pose proof (last_opt_spec _ HS) as L. rewrite E in L. split; [apply L|exact I]. }
  destruct Hr as [Hr Hq].
  assert (Q : (length (r :: filter (fun s => sr_less s r) S) <= below S it)%nat).
  { destruct it as [q|]; cbn [below].
    - apply NoDup_incl_length.
      + constructor; [|apply sorted_nodup, filter_sorted, HS]. intros K. apply filter_In in K.
        rewrite sr_less_irrefl in K. destruct K as [_ K]; discriminate K.
      + intros s [<-|Hs]; apply filter_In; [tauto|]. apply filter_In in Hs. split; [apply Hs|].
        exact (sr_less_trans _ _ _ (proj2 Hs) Hq).
    - apply NoDup_incl_length.
      + constructor; [|apply sorted_nodup, filter_sorted, HS]. intros K. apply filter_In in K.
        rewrite sr_less_irrefl in K. destruct K as [_ K]; discriminate K.
      + intros s [<-|Hs]; [exact Hr|]. apply filter_In in Hs. apply Hs. }
  cbn [length] in Q. lia.
Qed.

Lemma back_up_spec fuel c S it : sepset S -> S <> [] -> (below S it <= fuel)%nat ->
  (match it with
   | None => True
   | Some r => In r S /\ forall t, In t S -> s_lo t <= c -> t = r \/ sr_less t r = true
   end) ->
  exists it' k, back_up fuel c S it = Some it' /\ at_ S it' k /\ forall s, In s S -> s_lo s <= k -> s_hi s < c.
Proof.
  intros H NE. revert it. induction fuel as [|fuel IH]; intros it Hf Hit.
  - destruct it as [r|]; cbn [below] in Hf.
    2:{ destruct S; [congruence|cbn [length] in Hf; lia]. }
    destruct Hit as [Hr Hit]. cbn [back_up].
    assert (B : is_begin (Some r) S = true).
    { destruct (is_begin (Some r) S) eqn:B; [reflexivity|].
      destruct (is_begin_spec S r H Hr B) as [s [Hs Ls]].
      assert (K : In s (filter (fun s => sr_less s r) S)) by (apply filter_In; tauto).
      destruct (filter (fun s => sr_less s r) S); [contradiction|cbn [length] in Hf; lia]. }
    rewrite B. rewrite andb_false_r. exists (Some r), (s_lo r - 1). split; [reflexivity|].
    pose proof (is_begin_true S r H B) as M. split.
    + cbn [at_]. split; [exact Hr|]. split; [lia|]. intros s Hs _. exact (M s Hs).
    + intros s Hs L. specialize (M s Hs). lia.
  - cbn [back_up].
    destruct ((match it with None => true | Some r => s_lo r >? c end) && negb (is_begin it S)) eqn:C.
    + destruct (set_prev it S) as [r'|] eqn:E.
      * cbn [bind]. apply IH.
        -- assert (Hq : match it with Some q => In q S | None => True end) by (destruct it; [apply Hit|exact I]).
           pose proof (below_prev S it r' (ss_sorted S H) Hq E). lia.
        -- destruct it as [r|]; cbn [set_prev] in E.
           ++ pose proof (last_opt_spec _ (filter_sorted (fun s => sr_less s r) S (ss_sorted S H))) as L.
              rewrite E in L. destruct L as [L1 L2]. apply filter_In in L1. split; [apply L1|].
              intros t Ht Lt. destruct Hit as [Hr Hit]. destruct (Hit t Ht Lt) as [->|K].
              ** lia.
              ** apply L2. apply filter_In. tauto.
           ++ pose proof (last_opt_spec _ (ss_sorted S H)) as L. rewrite E in L. destruct L as [L1 L2].
              split; [exact L1|]. intros t Ht _. exact (L2 t Ht).
      * exfalso. destruct it as [r|]; cbn [set_prev] in E.
        -- pose proof (last_opt_spec _ (filter_sorted (fun s => sr_less s r) S (ss_sorted S H))) as L.
           rewrite E in L. destruct Hit as [Hr _].
           assert (B : is_begin (Some r) S = false) by (destruct (is_begin (Some r) S); [lia|reflexivity]).
           destruct (is_begin_spec S r H Hr B) as [s [Hs Ls]].
           assert (K : In s (filter (fun s => sr_less s r) S)) by (apply filter_In; tauto).
           rewrite L in K. contradiction.
        -- pose proof (last_opt_spec _ (ss_sorted S H)) as L. rewrite E in L. congruence.
    + destruct it as [r|].
      2:{ exfalso. cbn [andb is_begin] in C. destruct S; [congruence|discriminate C]. }
      destruct Hit as [Hr Hit]. exists (Some r), (s_lo r - 1). split; [reflexivity|].
      split.
      * cbn [at_]. split; [exact Hr|]. split; [lia|]. intros s Hs L. lia.
      * intros s Hs L.
        destruct (s_lo r >? c) eqn:Ec.
        -- cbn [andb] in C. assert (B : is_begin (Some r) S = true) by (destruct (is_begin (Some r) S); [reflexivity|discriminate C]).
           pose proof (is_begin_true S r H B s Hs). lia.
        -- destruct (ss_sep S H s r Hs Hr) as [->|A]; [lia|]. unfold apart in A.
           pose proof (ss_ne S H s Hs). pose proof (ss_ne S H r Hr). lia.
Qed.
Lemma start_iter c d S : sepset S -> S <> [] ->
  exists it k, back_up (length S) c S (set_lower_bound (mk_sr c d c d) S) = Some it /\ at_ S it k /\
    forall s, In s S -> s_lo s <= k -> s_hi s < c.
Proof.
  intros H NE. apply back_up_spec; [exact H|exact NE| |].
  - destruct (set_lower_bound _ S) as [r|]; cbn [below]; [|lia].
    clear. induction S as [|s S IH]; cbn [filter length]; [lia|]. destruct (sr_less s r); cbn [length]; lia.
  - unfold set_lower_bound. pose proof (find_first (fun s => negb (sr_less s (mk_sr c d c d))) S (ss_sorted S H)) as F.
    destruct (find _ S) as [r|]; [|exact I]. destruct F as [F1 [F2 F3]]. split; [exact F1|].
    intros t Ht L. destruct (sr_less t (mk_sr c d c d)) eqn:E.
    + right. destruct (sr_less t r) eqn:E2; [reflexivity|]. exfalso.
      destruct (sr_less r t) eqn:E3.
      * pose proof (sr_less_trans _ _ _ E3 E) as E4. rewrite E4 in F2. discriminate F2.
      * pose proof (sr_total _ _ E2 E3) as ->. rewrite E in F2. discriminate F2.
    + destruct (F3 t Ht) as [->|K]; [rewrite E; reflexivity|left; reflexivity|].
      (* r is before t, so its low end is smaller than c, but it is not before the key *)
      apply (sep_less S r t H F1 Ht) in K.
      assert (Q : sr_less r (mk_sr c d c d) = true) by (apply sr_less_spec; cbn [s_lo]; lia).
      rewrite Q in F2. discriminate F2.
Qed.

(* ---------- the main loop passes over rectangles that do not touch ---------- *)
Definition touch (c d : Z) (s : srect) : Prop := s_lo s <= d /\ c <= s_hi s.
Lemma loop_skip fuel c d st ep : forall k it, sepset (sc_data st) -> at_ (sc_data st) it k ->
  (forall s, In s (sc_data st) -> k < s_lo s -> ~ touch c d s) ->
  (count_gt k (sc_data st) < fuel)%nat ->
  edge_loop fuel c d st it ep = Some (st, ep).
Proof.
  destruct st as [S have cur cc out]. cbn [sc_data].
  induction fuel as [|fuel IH]; intros k it H A N Hf; [lia|].
  destruct it as [r|]; [|reflexivity]. cbn [edge_loop].
  destruct (s_lo r <=? d) eqn:E1; [|reflexivity].
  cbn [at_] in A. destruct A as [A1 [A2 A3]].
  assert (E2 : (s_hi r >=? c) = false).
  { destruct (s_hi r >=? c) eqn:E2; [|reflexivity]. exfalso. apply (N r A1 A2). unfold touch. lia. }
  rewrite E2. apply (IH (s_lo r)).
  - exact H.
  - apply next_at; assumption.
  - intros s Hs L. apply N; [exact Hs|lia].
  - pose proof (count_gt_lt k r S A1 A2). lia.
Qed.
Lemma loop_reach fuel c d st ep r : forall k it, sepset (sc_data st) -> at_ (sc_data st) it k ->
  In r (sc_data st) -> k < s_lo r -> touch c d r ->
  (forall s, In s (sc_data st) -> k < s_lo s < s_lo r -> ~ touch c d s) ->
  (count_gt k (sc_data st) < fuel)%nat ->
  exists fuel', edge_loop fuel c d st it ep = edge_loop (Datatypes.S fuel') c d st (Some r) ep /\
    (count_gt (s_lo r) (sc_data st) < fuel')%nat.
Proof.
  destruct st as [S have cur cc out]. cbn [sc_data].
  induction fuel as [|fuel IH]; intros k it H A Hr Lr T N Hf; [lia|].
  destruct it as [q|].
  2:{ exfalso. cbn [at_] in A. specialize (A r Hr). lia. }
  cbn [at_] in A. destruct A as [A1 [A2 A3]].
  destruct (Z.eq_dec (s_lo q) (s_lo r)) as [E|NE].
  - assert (q = r) by (apply (sep_lo_inj S); assumption). subst q. exists fuel. split; [reflexivity|].
    pose proof (count_gt_lt k r S A1 A2). lia.
  - pose proof (A3 r Hr Lr) as L. cbn [edge_loop]. unfold touch in T.
    replace (s_lo q <=? d) with true by lia.
    assert (E2 : (s_hi q >=? c) = false).
    { destruct (s_hi q >=? c) eqn:E2; [|reflexivity]. exfalso. apply (N q A1); [lia|]. unfold touch. lia. }
    rewrite E2. apply (IH (s_lo q)).
    + exact H.
    + apply next_at; assumption.
    + exact Hr.
    + lia.
    + exact T.
    + intros s Hs Ls. apply N; [exact Hs|lia].
    + pose proof (count_gt_lt k q S A1 A2). lia.
Qed.
