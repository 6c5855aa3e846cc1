(* Following pointers: a partial injection on finitely many numbers leads to null
   or back to the start. *)
From Verif Require Import Base.
Local Open Scope nat_scope.

Section Orbit.
Variable f : nat -> option nat.
(* from x through l, and then to z *)
Fixpoint chain (x : nat) (l : list nat) (z : option nat) : Prop :=
  match l with [] => f x = z | y :: l' => f x = Some y /\ chain y l' z end.
Lemma chain_app : forall a x b z y, chain x (a ++ y :: b) z <-> chain x a (Some y) /\ chain y b z.
Proof. induction a as [|w a IH]; intros x b z y; cbn [app chain]; [tauto|]. rewrite IH. tauto. Qed.
Lemma chain_last : forall l x z, chain x l z -> exists y, In y (x :: l) /\ f y = z.
Proof.
  induction l as [|w l IH]; intros x z H; cbn [chain] in H; [exists x; split; [left; reflexivity|exact H]|].
  destruct H as [_ H]. destruct (IH _ _ H) as [y [Y1 Y2]]. exists y. split; [right; exact Y1|exact Y2].
Qed.
(* every element but the first has its predecessor in the list *)
Lemma chain_pred : forall l x z y, chain x l z -> In y l -> exists w, In w (x :: l) /\ f w = Some y /\ exists a b, x :: l = a ++ w :: y :: b.
Proof.
  induction l as [|w l IH]; intros x z y H Y; [destruct Y|]. cbn [chain] in H. destruct H as [H1 H2]. destruct Y as [->|Y].
  - exists x. split; [left; reflexivity|]. split; [exact H1|]. exists [], l. reflexivity.
  - destruct (IH _ _ _ H2 Y) as [v [V1 [V2 [a [b V3]]]]]. exists v. split; [right; exact V1|]. split; [exact V2|]. exists (x :: a), b. rewrite V3. reflexivity.
Qed.
Lemma chain_succ : forall l x z y, chain x l z -> In y (x :: l) -> f y = z \/ exists w, f y = Some w /\ In w l.
Proof.
  induction l as [|w l IH]; intros x z y H Y; cbn [chain] in H.
  - destruct Y as [->|[]]. left. exact H.
  - destruct H as [H1 H2]. destruct Y as [->|Y]; [right; exists w; split; [exact H1|left; reflexivity]|]. destruct (IH _ _ _ H2 Y) as [E|[v [V1 V2]]]; [left; exact E|right; exists v; split; [exact V1|right; exact V2]].
Qed.
(* a cycle can be entered anywhere *)
Lemma cycle_turn x l y : chain x l (Some x) -> In y l -> exists l', chain y l' (Some y) /\ (forall j, In j (y :: l') <-> In j (x :: l)) /\ (NoDup (x :: l) -> NoDup (y :: l')).
Proof.
  intros H Y. apply in_split in Y. destruct Y as [a [b ->]]. apply chain_app in H. destruct H as [H1 H2]. exists (b ++ x :: a). split; [apply chain_app; tauto|].
  split.
  - intros j. cbn [In]. rewrite !in_app_iff. cbn [In]. tauto.
  - intros N. change (NoDup ((y :: b) ++ (x :: a))). change (NoDup ((x :: a) ++ (y :: b))) in N.
    clear - N. revert N. generalize (x :: a), (y :: b). clear. intros l r N. induction r as [|z r IH]; cbn [app]; [rewrite app_nil_r in N; exact N|].
    apply NoDup_remove in N. destruct N as [N1 N2]. constructor; [|exact (IH N1)]. rewrite in_app_iff in *. tauto.
Qed.

Variable n : nat.
Hypothesis INJ : forall a b c, f a = Some c -> f b = Some c -> a = b.
Hypothesis RNG : forall a b, f a = Some b -> b < n.
Lemma chain_snoc : forall l x y, chain x l (Some y) -> forall z, f y = z -> chain x (l ++ [y]) z.
Proof. intros l x y H z Z. apply chain_app. split; [exact H|exact Z]. Qed.
Lemma small_length l : NoDup l -> (forall y, In y l -> y < n) -> length l <= n.
Proof.
  intros N H. rewrite <- (seq_length n 0). apply NoDup_incl_length; [exact N|]. intros y Y. apply in_seq. specialize (H y Y). lia.
Qed.
Lemma walk x : x < n -> exists l z, chain x l z /\ NoDup (x :: l) /\ (z = None \/ z = Some x) /\ (forall y, In y (x :: l) -> y < n).
Proof.
  intros X.
  assert (P : forall m, exists l z, chain x l z /\ NoDup (x :: l) /\ (forall y, In y (x :: l) -> y < n) /\ ((z = None \/ z = Some x) \/ m <= length l)).
  { induction m as [|m [l [z [H1 [H2 [H3 H4]]]]]].
    - exists [], (f x). split; [reflexivity|]. split; [constructor; [intros []|constructor]|]. split; [intros y [<-|[]]; exact X|right; cbn; lia].
    - destruct H4 as [H4|H4]; [exists l, z; tauto|]. destruct z as [y|]; [|exists l, None; tauto].
      destruct (Nat.eq_dec y x) as [->|YX]; [exists l, (Some x); tauto|].
      assert (YL : ~ In y l).
      { intros Y. destruct (chain_pred _ _ _ _ H1 Y) as [w [W1 [W2 [a [b W3]]]]]. destruct (chain_last _ _ _ H1) as [v [V1 V2]]. pose proof (INJ _ _ _ W2 V2) as WV. subst v.
        (* w is followed by y and is also the last of the list *)
        assert (L : exists c, x :: l = c ++ [w]).
        { clear - H1 V2 INJ H2. assert (K : exists c t, x :: l = c ++ [t] /\ f t = Some y).
          { clear - H1. revert x H1. induction l as [|u l IH]; intros x H1; cbn [chain] in H1; [exists [], x; split; [reflexivity|exact H1]|]. destruct H1 as [_ H1]. destruct (IH _ H1) as [c [t [C1 C2]]]. exists (x :: c), t. rewrite C1. split; [reflexivity|exact C2]. }
          destruct K as [c [t [K1 K2]]]. rewrite (INJ _ _ _ K2 V2) in K1. exists c. exact K1. }
        destruct L as [c L]. rewrite W3 in H2. rewrite W3 in L. change (a ++ w :: y :: b) with (a ++ [w] ++ y :: b) in L. rewrite app_assoc in L.
        apply NoDup_remove_2 in H2. apply H2. rewrite in_app_iff. right.
        assert (E : In w (y :: b)).
        { clear - L. assert (R : rev ((a ++ [w]) ++ y :: b) = rev (c ++ [w])) by (rewrite L; reflexivity). rewrite (rev_app_distr (a ++ [w])), (rev_app_distr c) in R. cbn [rev app] in R.
          apply in_rev. cbn [rev]. destruct (rev b ++ [y]) as [|h t] eqn:HB; [destruct (rev b); discriminate|]. cbn [app] in R. left. congruence. }
        exact E. }
      exists (l ++ [y]), (f y). split; [apply chain_snoc; [exact H1|reflexivity]|]. split.
      + apply (NoDup_Add (a := y) (l := (x :: l) ++ [])); [apply (Add_app y (x :: l) [])|]. rewrite app_nil_r. split; [exact H2|]. cbn [In]. intros [E|E]; [congruence|exact (YL E)].
      + split; [|right; rewrite app_length; cbn; lia]. intros u [U|U]; [apply H3; left; exact U|]. apply in_app_iff in U. destruct U as [U|[<-|[]]]; [apply H3; right; exact U|].
        destruct (chain_last _ _ _ H1) as [v [_ V2]]. exact (RNG _ _ V2). }
  destruct (P n) as [l [z [H1 [H2 [H3 H4]]]]]. exists l, z. split; [exact H1|]. split; [exact H2|]. split; [|exact H3]. destruct H4 as [H4|H4]; [exact H4|].
  exfalso. pose proof (small_length _ H2 H3) as L. cbn [length] in L. lia.
Qed.
End Orbit.
Lemma chain_ext f g : forall l x z, (forall y, In y (x :: l) -> g y = f y) -> chain f x l z -> chain g x l z.
Proof.
  induction l as [|w l IH]; intros x z E H; cbn [chain] in *; [rewrite E by (left; reflexivity); exact H|]. destruct H as [H1 H2]. split; [rewrite E by (left; reflexivity); exact H1|].
  apply IH; [|exact H2]. intros y Y. apply E. right. exact Y.
Qed.
