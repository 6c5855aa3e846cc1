(* Lemmas about the sorted-list model of std::map. *)
From Verif Require Import Base Scan90Spec BoolOpModel.

Section MapLemmas.
Context {T : Type}.
Implicit Types (m A B C : smap T).

Definition klt (k : Z) (m : smap T) : Prop := Forall (fun p => fst p < k) m.
Definition kge (k : Z) (m : smap T) : Prop := Forall (fun p => k <= fst p) m.
Definition ksorted (m : smap T) : Prop := StronglySorted (fun p q => fst p < fst q) m.

Lemma klt_app k A B : klt k (A ++ B) <-> klt k A /\ klt k B.
Proof. apply Forall_app. Qed.
Lemma kge_app k A B : kge k (A ++ B) <-> kge k A /\ kge k B.
Proof. apply Forall_app. Qed.
Lemma klt_cons k a v A : klt k ((a, v) :: A) <-> a < k /\ klt k A.
Proof.
  split.
  - intros H. inversion H; subst. split; assumption.
  - intros [H1 H2]. constructor; assumption.
Qed.
Lemma kge_cons k a v A : kge k ((a, v) :: A) <-> k <= a /\ kge k A.
Proof.
  split.
  - intros H. inversion H; subst. split; assumption.
  - intros [H1 H2]. constructor; assumption.
Qed.
Lemma klt_weaken k k' A : k <= k' -> klt k A -> klt k' A.
Proof. intros Hk. apply Forall_impl. intros a Ha. lia. Qed.
Lemma kge_weaken k k' A : k' <= k -> kge k A -> kge k' A.
Proof. intros Hk. apply Forall_impl. intros a Ha. lia. Qed.

Lemma ksorted_cons k v A : ksorted ((k, v) :: A) <-> ksorted A /\ kge (k + 1) A.
Proof.
  split.
  - intros H. inversion H as [|x l H1 H2]; subst. split; [exact H1|].
    unfold kge. eapply Forall_impl; [|exact H2]. intros a Ha. cbn [fst] in Ha. lia.
  - intros [H1 H2]. constructor; [exact H1|].
    eapply Forall_impl; [|exact H2]. intros a Ha. cbn [fst] in *. lia.
Qed.

Lemma ksorted_app A B : ksorted (A ++ B) <->
  ksorted A /\ ksorted B /\ (forall a b, In a A -> In b B -> fst a < fst b).
Proof.
  induction A as [|[k v] A IH]; cbn [app].
  - split.
    + intros H. split; [constructor|]. split; [exact H|]. intros a b [].
    + intros [_ [H _]]. exact H.
  - rewrite !ksorted_cons, IH, kge_app. split.
    + intros [[H1 [H2 H3]] [H4 H5]]. repeat split; try assumption.
      intros a b [Ha|Ha] Hb.
      * subst a. cbn [fst]. unfold kge in H5. rewrite Forall_forall in H5. specialize (H5 b Hb). lia.
      * apply H3; assumption.
    + intros [[H1 H2] [H3 H4]]. repeat split; try assumption.
      * intros a b Ha Hb. apply H4; [right; exact Ha | exact Hb].
      * unfold kge. apply Forall_forall. intros b Hb.
        specialize (H4 (k, v) b (or_introl eq_refl) Hb). cbn [fst] in H4. lia.
Qed.

(* splitting a sorted map at a key *)
Lemma ksorted_split k m : ksorted m ->
  exists A C, m = A ++ C /\ klt k A /\ kge k C.
Proof.
  induction m as [|[k' v] m IH]; intros Hs.
  - exists [], []. repeat split; constructor.
  - apply ksorted_cons in Hs. destruct Hs as [Hs Hg].
    destruct (Z.ltb_spec k' k) as [Hk|Hk].
    + destruct (IH Hs) as [A [C [E [HA HC]]]]. exists ((k', v) :: A), C.
      subst m. repeat split; [|exact HC]. apply klt_cons. split; assumption.
    + exists [], ((k', v) :: m). repeat split; [constructor|].
      apply kge_cons. split; [exact Hk|]. eapply kge_weaken; [|exact Hg]. lia.
Qed.

Lemma ksorted_glue k A C : ksorted A -> ksorted C -> klt k A -> kge k C -> ksorted (A ++ C).
Proof.
  intros HA HC HlA HgC. apply ksorted_app. repeat split; try assumption.
  intros a b Ha Hb. unfold klt in HlA. unfold kge in HgC. rewrite Forall_forall in *.
  specialize (HlA a Ha). specialize (HgC b Hb). lia.
Qed.

(* ---- operations on a decomposed map ---- *)
Lemma m_find_mid k v A C : klt k A -> m_find k (A ++ (k, v) :: C) = Some v.
Proof.
  induction A as [|[k' v'] A IH]; intros H; cbn [app m_find].
  - rewrite Z.eqb_refl. reflexivity.
  - apply klt_cons in H. destruct H as [H1 H2].
    destruct (Z.eqb_spec k' k) as [E|E]; [lia|]. apply IH. exact H2.
Qed.

Lemma m_deref_mid k v A C : klt k A -> m_deref (Some k) (A ++ (k, v) :: C) = Some (k, v).
Proof. intros H. cbn [m_deref]. rewrite (m_find_mid k v A C H). reflexivity. Qed.

Lemma m_valid_mid k v A C : klt k A -> m_valid (Some k) (A ++ (k, v) :: C) = Some tt.
Proof. intros H. cbn [m_valid]. rewrite (m_find_mid k v A C H). reflexivity. Qed.

Lemma m_lower_bound_app k A C : klt k A -> kge k C -> m_lower_bound k (A ++ C) = m_begin C.
Proof.
  intros HA HC. induction A as [|[k' v'] A IH]; cbn [app m_lower_bound].
  - destruct C as [|[k' v'] C]; [reflexivity|]. cbn [m_lower_bound m_begin].
    apply kge_cons in HC. destruct (Z.geb_spec k' k); [reflexivity|lia].
  - apply klt_cons in HA. destruct HA as [H1 H2].
    destruct (Z.geb_spec k' k); [lia|]. apply IH. exact H2.
Qed.

Lemma m_next_mid k v A C : klt k A -> m_next k (A ++ (k, v) :: C) = Some (m_begin C).
Proof.
  induction A as [|[k' v'] A IH]; intros H; cbn [app m_next].
  - rewrite Z.eqb_refl. reflexivity.
  - apply klt_cons in H. destruct H as [H1 H2].
    destruct (Z.eqb_spec k' k) as [E|E]; [lia|]. apply IH. exact H2.
Qed.

Definition it_gt (it : iter) (k : Z) : Prop := match it with None => True | Some k' => k < k' end.

Lemma m_prev_app p A a va C it :
  klt (a + 1) A -> it_gt it a -> it = m_begin C ->
  m_prev p it (A ++ (a, va) :: C) = Some (Some a).
Proof.
  intros HA Hit E. revert p. induction A as [|[k v] A IH]; intros p; cbn [app m_prev].
  - assert (Hne : iter_eqb it (Some a) = false).
    { destruct it as [k|]; cbn [iter_eqb]; [|reflexivity]. cbn [it_gt] in Hit.
      destruct (Z.eqb_spec k a); [lia|reflexivity]. }
    rewrite Hne. destruct C as [|[k v] C]; cbn [m_begin] in E; subst it; cbn [m_prev iter_eqb].
    + reflexivity.
    + rewrite Z.eqb_refl. reflexivity.
  - apply klt_cons in HA. destruct HA as [H1 H2].
    assert (Hne : iter_eqb it (Some k) = false).
    { destruct it as [k'|]; cbn [iter_eqb]; [|reflexivity]. cbn [it_gt] in Hit.
      destruct (Z.eqb_spec k' k); [lia|reflexivity]. }
    rewrite Hne. apply IH. exact H2.
Qed.

Lemma m_decr_app A a va C :
  klt (a + 1) A -> it_gt (m_begin C) a ->
  m_decr (m_begin C) (A ++ (a, va) :: C) = Some (Some a).
Proof. intros HA HC. unfold m_decr. apply m_prev_app; [exact HA|exact HC|reflexivity]. Qed.

Lemma m_insert_mid k v A C : klt k A -> kge (k + 1) C -> m_insert k v (A ++ C) = A ++ (k, v) :: C.
Proof.
  intros HA HC. induction A as [|[k' v'] A IH]; cbn [app m_insert].
  - destruct C as [|[k' v'] C]; [reflexivity|]. cbn [m_insert].
    apply kge_cons in HC. destruct (Z.ltb_spec k k'); [reflexivity|lia].
  - apply klt_cons in HA. destruct HA as [H1 H2].
    destruct (Z.ltb_spec k k'); [lia|]. destruct (Z.eqb_spec k k'); [lia|].
    rewrite (IH H2). reflexivity.
Qed.

Lemma m_set_mid k v v' A C : klt k A -> m_set k v' (A ++ (k, v) :: C) = A ++ (k, v') :: C.
Proof.
  induction A as [|[k0 v0] A IH]; intros H; cbn [app m_set].
  - rewrite Z.eqb_refl. reflexivity.
  - apply klt_cons in H. destruct H as [H1 H2].
    destruct (Z.eqb_spec k0 k) as [E|E]; [lia|]. rewrite (IH H2). reflexivity.
Qed.

Lemma m_erase_mid k v A C : klt k A -> m_erase k (A ++ (k, v) :: C) = A ++ C.
Proof.
  induction A as [|[k0 v0] A IH]; intros H; cbn [app m_erase].
  - rewrite Z.eqb_refl. reflexivity.
  - apply klt_cons in H. destruct H as [H1 H2].
    destruct (Z.eqb_spec k0 k) as [E|E]; [lia|]. rewrite (IH H2). reflexivity.
Qed.

Lemma m_begin_app_nonempty a va A C : m_begin (((a, va) :: A) ++ C) = Some a.
Proof. reflexivity. Qed.

Lemma iter_eqb_refl it : iter_eqb it it = true.
Proof. destruct it as [k|]; cbn [iter_eqb]; [apply Z.eqb_refl|reflexivity]. Qed.
Lemma iter_eqb_spec a b : iter_eqb a b = true <-> a = b.
Proof.
  destruct a as [x|], b as [y|]; cbn [iter_eqb]; split; intros H; try discriminate H; try reflexivity.
  - apply Z.eqb_eq in H. subst. reflexivity.
  - injection H as H. subst. apply Z.eqb_refl.
Qed.
Lemma iter_eqb_false k k' : k <> k' -> iter_eqb (Some k) (Some k') = false.
Proof. intros H. cbn [iter_eqb]. destruct (Z.eqb_spec k k'); [contradiction|reflexivity]. Qed.

(* the value of the step function described by a map *)
Fixpoint mval (d : T) (m : smap T) (y : Z) : T :=
  match m with
  | [] => d
  | (k, v) :: m' => if k <=? y then mval v m' y else d
  end.

Fixpoint lastval (d : T) (m : smap T) : T :=
  match m with
  | [] => d
  | (_, v) :: m' => lastval v m'
  end.

Lemma mval_above d A C y : klt (y + 1) A -> mval d (A ++ C) y = mval (lastval d A) C y.
Proof.
  revert d. induction A as [|[k v] A IH]; intros d H; cbn [app mval lastval]; [reflexivity|].
  apply klt_cons in H. destruct H as [H1 H2].
  destruct (Z.leb_spec k y); [|lia]. apply IH. exact H2.
Qed.

Lemma mval_below_nil d C y : kge (y + 1) C -> mval d C y = d.
Proof.
  destruct C as [|[k v] C]; intros H; cbn [mval]; [reflexivity|].
  apply kge_cons in H. destruct (Z.leb_spec k y); [lia|reflexivity].
Qed.

Lemma mval_below d A C y : kge (y + 1) C -> mval d (A ++ C) y = mval d A y.
Proof.
  intros H. revert d. induction A as [|[k v] A IH]; intros d; cbn [app mval].
  - apply mval_below_nil. exact H.
  - destruct (Z.leb_spec k y); [apply IH|reflexivity].
Qed.

Lemma lastval_app d A C : lastval d (A ++ C) = lastval (lastval d A) C.
Proof. revert d. induction A as [|[k v] A IH]; intros d; cbn [app lastval]; [reflexivity|apply IH]. Qed.

Lemma mval_all d A y : klt (y + 1) A -> mval d A y = lastval d A.
Proof. intros H. rewrite <- (app_nil_r A) at 1. rewrite mval_above by exact H. reflexivity. Qed.
End MapLemmas.
