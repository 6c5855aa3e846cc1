(* Sequences of chain ends on a scan line: non-crossing matchings, and the gap
   of the sequence that stands for a cell to the left of the scan line. *)
From Verif Require Import Base Scan90Spec Poly90Spec.
From Coq Require Import Arith.

Ltac apps := repeat first [rewrite <- app_assoc | progress cbn [app]].

Ltac inl := repeat first [rewrite in_app_iff | progress cbn [In]]; tauto.

(* occurrences *)
Fixpoint cn (i : nat) (l : list nat) : Z :=
  match l with [] => 0 | j :: l' => b2z (i =? j)%nat + cn i l' end.
Lemma cn_app i l m : cn i (l ++ m) = cn i l + cn i m.
Proof. induction l as [|j l IH]; cbn [cn app]; [reflexivity|]. rewrite IH. lia. Qed.
Lemma cn_nonneg i l : 0 <= cn i l.
Proof. induction l as [|j l IH]; cbn [cn]; [lia|]. destruct (i =? j)%nat; cbn [b2z]; lia. Qed.
Lemma cn_out i l : ~ In i l -> cn i l = 0.
Proof.
  induction l as [|j l IH]; cbn [cn In]; [reflexivity|]. intros H. rewrite IH by tauto.
  destruct (Nat.eqb_spec i j) as [->|_]; [exfalso; apply H; left; reflexivity|reflexivity].
Qed.
Lemma cn_in i l : In i l -> 1 <= cn i l.
Proof.
  induction l as [|j l IH]; cbn [cn In]; [intros []|]. pose proof (cn_nonneg i l) as K. intros [->|H].
  - rewrite Nat.eqb_refl. cbn [b2z]. lia.
  - specialize (IH H). destruct (i =? j)%nat; cbn [b2z]; lia.
Qed.
Lemma cn_nodup i l : NoDup l -> cn i l <= 1.
Proof.
  induction 1 as [|j l N H IH]; cbn [cn]; [lia|]. destruct (Nat.eqb_spec i j) as [->|_]; cbn [b2z]; [|lia].
  rewrite (cn_out j l N). lia.
Qed.
Lemma cn_le_nodup l : (forall i, cn i l <= 1) -> NoDup l.
Proof.
  induction l as [|j l IH]; intros H; constructor.
  - intros K. specialize (H j). cbn [cn] in H. rewrite Nat.eqb_refl in H. cbn [b2z] in H. pose proof (cn_in j l K). lia.
  - apply IH. intros i. specialize (H i). cbn [cn] in H. destruct (i =? j)%nat; cbn [b2z] in H; lia.
Qed.
Lemma cn_pos i l : 0 < cn i l -> In i l.
Proof.
  induction l as [|j l IH]; cbn [cn In]; [lia|]. destruct (Nat.eqb_spec i j) as [->|_]; cbn [b2z]; [left; reflexivity|].
  intros H. right. apply IH. lia.
Qed.

Definition odd_len (l : list nat) : bool := Nat.odd (length l).
Lemma odd_len_app l m : odd_len (l ++ m) = xorb (odd_len l) (odd_len m).
Proof. unfold odd_len. rewrite app_length. apply Nat.odd_add. Qed.
Lemma odd_len_cons i l : odd_len (i :: l) = negb (odd_len l).
Proof. unfold odd_len. cbn [length]. rewrite Nat.odd_succ, <- Nat.negb_odd. reflexivity. Qed.
Lemma odd_len_nil : odd_len [] = false.
Proof. reflexivity. Qed.

Definition wfq (pt : nat -> nat) (q : list nat) : Prop :=
  NoDup q /\ forall i, In i q -> In (pt i) q /\ pt i <> i /\ pt (pt i) = i.
(* a balanced sequence: the chains do not cross *)
Inductive bal (pt : nat -> nat) : list nat -> Prop :=
| bal_nil : bal pt []
| bal_cons i m v : pt (pt i) = i -> bal pt m -> bal pt v -> bal pt (i :: m ++ pt i :: v).
(* the chains whose weight is not zero are those with one end on either side *)
Definition gap (pt : nat -> nat) (w : nat -> Z) (q1 q2 : list nat) : Prop :=
  forall i, In i (q1 ++ q2) -> w i = cn i q1 - cn (pt i) q1.

Lemma nodup_cn q : NoDup q -> forall i, In i q -> cn i q = 1.
Proof. intros N i H. pose proof (cn_in i q H). pose proof (cn_nodup i q N). lia. Qed.
Lemma nodup_mid (u m v : list nat) : NoDup (u ++ m ++ v) -> NoDup m.
Proof.
  intros N. apply cn_le_nodup. intros i. pose proof (cn_nodup i _ N) as C. rewrite !cn_app in C.
  pose proof (cn_nonneg i u). pose proof (cn_nonneg i v). lia.
Qed.
Lemma nodup_del (u m v : list nat) : NoDup (u ++ m ++ v) -> NoDup (u ++ v).
Proof.
  intros N. apply cn_le_nodup. intros i. pose proof (cn_nodup i _ N) as C. rewrite !cn_app in *.
  pose proof (cn_nonneg i m). lia.
Qed.
(* an element of a list without repetition occurs at one place *)
Lemma nodup_once (a : nat) u v u' v' : NoDup (u ++ a :: v) -> u ++ a :: v = u' ++ a :: v' -> u = u' /\ v = v'.
Proof.
  revert u'. induction u as [|c u IH]; intros [|c' u'] N E; cbn [app] in *.
  - split; [reflexivity|congruence].
  - exfalso. injection E as E1 E2. subst c'. inversion N as [|? ? K _]; subst. apply K. rewrite in_app_iff. cbn [In]. tauto.
  - exfalso. injection E as E1 E2. subst c. inversion N as [|? ? K _]; subst. apply K. rewrite in_app_iff. cbn [In]. tauto.
  - injection E as E1 E2. inversion N as [|? ? _ N2]; subst. destruct (IH u' N2 E2) as [-> ->]. split; reflexivity.
Qed.
Lemma nodup_head (j : nat) l : NoDup (j :: l) -> ~ In j l.
Proof. intros N. apply NoDup_cons_iff in N. tauto. Qed.
(* two ways of splitting a list *)
Lemma app_split {A : Type} (x y m v : list A) (b : A) : x ++ y = m ++ b :: v ->
  (exists z, m = x ++ z /\ y = z ++ b :: v) \/ (exists z, x = m ++ b :: z /\ v = z ++ y).
Proof.
  revert m. induction x as [|c x IH]; intros m E; cbn [app] in E.
  - left. exists m. split; [reflexivity|exact E].
  - destruct m as [|c' m]; cbn [app] in E; injection E as E1 E2.
    + right. exists x. split; [rewrite E1; reflexivity|symmetry; exact E2].
    + destruct (IH m E2) as [[z [Z1 Z2]]|[z [Z1 Z2]]].
      * left. exists z. split; [rewrite Z1, E1; reflexivity|exact Z2].
      * right. exists z. split; [rewrite Z1, E1; reflexivity|exact Z2].
Qed.

Lemma bal_closed pt m : bal pt m -> forall i, In i m -> In (pt i) m.
Proof.
  induction 1 as [|i m v E _ IH1 _ IH2]; intros j; [intros []|]. cbn [In]. rewrite !in_app_iff. cbn [In].
  intros [<-|[H|[<-|H]]]; [tauto| |rewrite E; tauto|].
  - apply IH1 in H. tauto.
  - apply IH2 in H. tauto.
Qed.
Lemma bal_even pt m : bal pt m -> odd_len m = false.
Proof.
  induction 1 as [|i m v E _ IH1 _ IH2]; [reflexivity|]. rewrite odd_len_cons, odd_len_app, odd_len_cons, IH1, IH2. reflexivity.
Qed.
Lemma bal_app pt m n : bal pt m -> bal pt n -> bal pt (m ++ n).
Proof.
  intros H K. induction H as [|i m v E H1 IH1 H2 IH2]; [exact K|]. cbn [app]. rewrite <- app_assoc. cbn [app].
  apply bal_cons; assumption.
Qed.
Lemma bal_insert pt x m y : bal pt (x ++ y) -> bal pt m -> bal pt (x ++ m ++ y).
Proof.
  intros H Hm. remember (x ++ y) as l eqn:E. revert x y E.
  induction H as [|i m0 v0 Ei H1 IH1 H2 IH2]; intros x y E.
  - symmetry in E. apply app_eq_nil in E. destruct E as [-> ->]. cbn [app]. rewrite app_nil_r. exact Hm.
  - destruct x as [|c x]; cbn [app] in E |- *.
    + rewrite <- E. apply bal_app; [exact Hm|]. apply bal_cons; assumption.
    + injection E as E1 E2. subst c. destruct (app_split x y m0 v0 (pt i) (eq_sym E2)) as [[z [Z1 Z2]]|[z [Z1 Z2]]].
      * rewrite Z2. replace (x ++ m ++ z ++ pt i :: v0) with ((x ++ m ++ z) ++ pt i :: v0) by (apps; reflexivity).
        apply bal_cons; [exact Ei| |exact H2]. apply IH1. exact Z1.
      * rewrite Z1. apps. apply bal_cons; [exact Ei|exact H1|]. apply IH2. exact Z2.
Qed.
Lemma bal_remove2 pt x i y : bal pt (x ++ i :: pt i :: y) -> NoDup (x ++ i :: pt i :: y) -> pt (pt i) = i -> bal pt (x ++ y).
Proof.
  intros H N Ei. remember (x ++ i :: pt i :: y) as l eqn:E. revert x y E.
  induction H as [|j m0 v0 Ej H1 IH1 H2 IH2]; intros x y E.
  - destruct x; discriminate E.
  - assert (Nm : NoDup m0 /\ NoDup v0).
    { split; [apply (nodup_mid [j] m0 (pt j :: v0)); exact N|].
      apply (nodup_mid (j :: m0 ++ [pt j]) v0 []). rewrite app_nil_r. replace ((j :: m0 ++ [pt j]) ++ v0) with (j :: m0 ++ pt j :: v0) by (apps; reflexivity). exact N. }
    destruct Nm as [Nm Nv].
    destruct x as [|c x]; cbn [app] in E |- *.
    + injection E as E1 E2. subst j. destruct m0 as [|k m0]; cbn [app] in E2.
      * injection E2 as E3. subst y. exact H2.
      * injection E2 as E3 E4. exfalso. subst k. cbn [app] in N. inversion N as [|? ? _ N2]. inversion N2 as [|? ? K _].
        apply K. rewrite in_app_iff. cbn [In]. tauto.
    + injection E as E1 E2. subst c.
      destruct (app_split x (i :: pt i :: y) m0 v0 (pt j) (eq_sym E2)) as [[z [Z1 Z2]]|[z [Z1 Z2]]].
      * destruct z as [|z0 z]; cbn [app] in Z2.
        { exfalso. injection Z2 as Z3 Z4. assert (K : pt i = j) by (rewrite Z3; exact Ej).
          apply (nodup_head _ _ N). rewrite <- Z4, in_app_iff. cbn [In]. tauto. }
        injection Z2 as Z3 Z4. subst z0. destruct z as [|z0 z]; cbn [app] in Z4.
        { exfalso. injection Z4 as Z5 Z6. assert (K : i = j) by (rewrite <- Ei, <- Ej, Z5; reflexivity).
          apply (nodup_head _ _ N). rewrite Z1. inl. }
        injection Z4 as Z5 Z6. subst z0. rewrite Z6.
        replace (x ++ z ++ pt j :: v0) with ((x ++ z) ++ pt j :: v0) by (apps; reflexivity).
        apply bal_cons; [exact Ej| |exact H2]. apply IH1; [exact Nm|exact Z1].
      * rewrite Z1. apps. apply bal_cons; [exact Ej|exact H1|]. apply IH2; [exact Nv|exact Z2].
Qed.
Lemma bal_remove pt m : bal pt m -> forall x y, bal pt (x ++ m ++ y) -> NoDup (x ++ m ++ y) -> bal pt (x ++ y).
Proof.
  induction 1 as [|i m v Ei H1 IH1 H2 IH2]; intros x y H N; [exact H|].
  assert (H3 : bal pt ((x ++ i :: m ++ [pt i]) ++ y)).
  { apply IH2; apps; cbn [app] in H, N; rewrite <- app_assoc in H, N; exact H || exact N. }
  assert (N3 : NoDup ((x ++ i :: m ++ [pt i]) ++ y)).
  { apply (nodup_del _ v). apps. cbn [app] in N. rewrite <- app_assoc in N. exact N. }
  assert (H4 : bal pt ((x ++ [i]) ++ pt i :: y)).
  { apply IH1; apps; revert H3 N3; apps; intros H3 N3; exact H3 || exact N3. }
  assert (N4 : NoDup ((x ++ [i]) ++ pt i :: y)).
  { apply (nodup_del _ m). revert N3. apps. intros N3. exact N3. }
  apply (bal_remove2 pt x i y); [| |exact Ei]; revert H4 N4; apps; intros H4 N4; assumption.
Qed.
(* what lies between the two ends of a chain is balanced *)
Lemma bal_inner pt q : bal pt q -> NoDup q -> forall x i m y, q = x ++ i :: m ++ pt i :: y -> pt (pt i) = i -> bal pt m.
Proof.
  induction 1 as [|j m0 v0 Ej H1 IH1 H2 IH2]; intros N x i m y E Ei.
  - destruct x; discriminate E.
  - assert (Nm : NoDup m0) by (apply (nodup_mid [j] m0 (pt j :: v0)); exact N).
    assert (Nv : NoDup v0).
    { apply (nodup_mid (j :: m0 ++ [pt j]) v0 []). rewrite app_nil_r. revert N. apps. intros N. exact N. }
    destruct x as [|c x]; cbn [app] in E.
    + injection E as E1 E2. subst j. destruct (nodup_once (pt i) m0 v0 m y) as [-> _]; [|exact E2|exact H1].
      apply (nodup_mid [i] _ []). rewrite app_nil_r. exact N.
    + injection E as E1 E2. subst c.
      destruct (app_split x (i :: m ++ pt i :: y) m0 v0 (pt j) (eq_sym E2)) as [[z [Z1 Z2]]|[z [Z1 Z2]]].
      * destruct z as [|z0 z]; cbn [app] in Z2.
        { exfalso. injection Z2 as Z3 Z4. assert (K : pt i = j) by (rewrite Z3; exact Ej).
          apply (nodup_head _ _ N). rewrite <- Z4. inl. }
        injection Z2 as Z3 Z4. subst z0. symmetry in Z4.
        destruct (app_split z (pt j :: v0) m y (pt i) Z4) as [[t [T1 T2]]|[t [T1 T2]]].
        { destruct t as [|t0 t]; cbn [app] in T2; injection T2 as T3 T4.
          - exfalso. assert (K : i = j) by (rewrite <- Ei, <- Ej, T3; reflexivity). subst i.
            apply (nodup_head _ _ N). rewrite Z1. inl.
          - exfalso. assert (K : In (pt i) m0).
            { apply (bal_closed pt m0 H1). rewrite Z1, in_app_iff. cbn [In]. tauto. }
            pose proof (cn_nodup (pt i) _ N) as C. cbn [cn] in C. rewrite cn_app in C. cbn [cn] in C.
            pose proof (cn_in _ _ K) as C1. assert (K2 : In (pt i) v0) by (rewrite T4, in_app_iff; cbn [In]; tauto).
            pose proof (cn_in _ _ K2) as C2. destruct (pt i =? j)%nat, (pt i =? pt j)%nat; cbn [b2z] in C; lia. }
        apply (IH1 Nm x i m t); [rewrite Z1, T1; reflexivity|exact Ei].
      * apply (IH2 Nv z i m y); [exact Z2|exact Ei].
Qed.
Lemma bal_ext pt pt' m : bal pt m -> (forall i, In i m -> pt' i = pt i) -> bal pt' m.
Proof.
  induction 1 as [|i m v Ei H1 IH1 H2 IH2]; intros H; [constructor|].
  assert (E1 : pt' i = pt i) by (apply H; left; reflexivity).
  assert (E2 : pt' (pt i) = pt (pt i)) by (apply H; right; rewrite in_app_iff; cbn [In]; tauto).
  rewrite <- E1. apply bal_cons.
  - rewrite E1, E2. exact Ei.
  - apply IH1. intros j Hj. apply H. right. rewrite in_app_iff. tauto.
  - apply IH2. intros j Hj. apply H. right. rewrite in_app_iff. cbn [In]. tauto.
Qed.

Lemma bal_cn pt q m : wfq pt q -> bal pt m -> (forall i, In i m -> In i q) -> NoDup m ->
  forall i, In i q -> cn (pt i) m = cn i m.
Proof.
  intros [N Q] Bm Inc Nm i Hi. pose proof (bal_closed pt m Bm) as B. destruct (in_dec Nat.eq_dec i m) as [H|H].
  - rewrite (nodup_cn m Nm i H). apply nodup_cn; [exact Nm|]. apply B. exact H.
  - rewrite (cn_out i m H). apply cn_out. intros K. apply H. apply B in K. destruct (Q i Hi) as [_ [_ E]]. rewrite E in K. exact K.
Qed.
(* a gap may be moved across a block *)
Lemma gap_move pt w q1 m q2 : wfq pt (q1 ++ m ++ q2) -> bal pt m ->
  (gap pt w q1 (m ++ q2) <-> gap pt w (q1 ++ m) q2).
Proof.
  intros Q B. assert (K : forall i, In i (q1 ++ m ++ q2) -> cn (pt i) m = cn i m).
  { apply (bal_cn pt (q1 ++ m ++ q2)); [exact Q|exact B|intros i Hi; rewrite !in_app_iff; tauto|].
    destruct Q as [N _]. exact (nodup_mid _ _ _ N). }
  unfold gap. rewrite <- app_assoc.
  split; intros G i Hi; rewrite (G i Hi), !cn_app; rewrite (K i Hi); lia.
Qed.

(* ---------- two neighbouring ends are joined ---------- *)
Inductive join_case (pt : nat -> nat) (a b : nat) (u v : list nat) : Prop :=
| jc_side u1 u2 v1 v2 : u = u1 ++ pt a :: u2 -> v = v1 ++ pt b :: v2 -> bal pt u2 -> bal pt v1 -> join_case pt a b u v
| jc_right v1 v2 v3 : v = v1 ++ pt b :: v2 ++ pt a :: v3 -> bal pt v1 -> bal pt v2 -> join_case pt a b u v
| jc_left u1 u2 u3 : u = u1 ++ pt b :: u2 ++ pt a :: u3 -> bal pt u2 -> bal pt u3 -> join_case pt a b u v.

Lemma nodup_count q : NoDup q -> forall i, cn i q <= 1.
Proof. intros N i. apply cn_nodup. exact N. Qed.

Lemma join_cases pt q a b u v : wfq pt q -> bal pt q -> q = u ++ a :: b :: v -> pt a <> b ->
  join_case pt a b u v.
Proof.
  intros Qq NC E Nab. pose proof Qq as [N Q].
  assert (Ha : In a q) by (rewrite E, in_app_iff; cbn [In]; tauto).
  assert (Hb : In b q) by (rewrite E, in_app_iff; cbn [In]; tauto).
  destruct (Q a Ha) as [Ia [Da Ea]]. destruct (Q b Hb) as [Ib [Db Eb]].
  assert (Nba : pt b <> a) by (intros K; apply Nab; rewrite <- K; exact Eb).
  rewrite E, in_app_iff in Ia, Ib. cbn [In] in Ia, Ib.
  assert (Sub : forall x y z, q = x ++ y ++ z -> NoDup y).
  { intros x y z ->. exact (nodup_mid _ _ _ N). }
  pose proof (bal_inner pt q NC N) as Inn.
  destruct Ia as [Ia|[Ia|[Ia|Ia]]]; [|exfalso; apply Da; congruence|exfalso; apply Nab; congruence|].
  - destruct (in_split _ _ Ia) as [u1 [u2 Eu]].
    assert (B2 : bal pt u2).
    { apply (Inn u1 (pt a) u2 (b :: v)); [rewrite E, Eu, Ea; apps; reflexivity|congruence]. }
    destruct Ib as [Ib|[Ib|[Ib|Ib]]]; [|exfalso; apply Nba; congruence|exfalso; apply Db; congruence|].
    + (* pt b in u: left of pt a *)
      rewrite Eu, in_app_iff in Ib. cbn [In] in Ib. destruct Ib as [Ib|[Ib|Ib]].
      * destruct (in_split _ _ Ib) as [x1 [x2 Ex]]. apply (jc_left pt a b u v x1 x2 u2); [|  |exact B2].
        { rewrite Eu, Ex, <- app_assoc. reflexivity. }
        assert (Bm : bal pt (x2 ++ pt a :: u2 ++ [a])).
        { apply (Inn x1 (pt b) _ v); [rewrite E, Eu, Ex, Eb; apps; reflexivity|congruence]. }
        assert (S2 : NoDup (x2 ++ pt a :: u2 ++ [a])).
        { apply (Sub (x1 ++ [pt b]) _ (b :: v)). rewrite E, Eu, Ex. apps. reflexivity. }
        rewrite <- (app_nil_r x2). apply (bal_remove pt (pt a :: u2 ++ [a])).
        { rewrite <- Ea at 2. apply bal_cons; [congruence|exact B2|constructor]. }
        { rewrite app_nil_r. exact Bm. } { rewrite app_nil_r. exact S2. }
      * exfalso. assert (K : a = b) by (rewrite <- Ea, <- Eb, Ib; reflexivity).
        rewrite E, K in N. pose proof (nodup_count _ N b) as C. rewrite cn_app in C. cbn [cn] in C. rewrite Nat.eqb_refl in C.
        pose proof (cn_nonneg b u). pose proof (cn_nonneg b v). cbn [b2z] in C. lia.
      * exfalso. apply (bal_closed pt u2 B2) in Ib. rewrite Eb in Ib.
        rewrite E, Eu in N. pose proof (nodup_count _ N b) as C. rewrite cn_app in C. cbn [cn] in C.
        rewrite cn_app in C. cbn [cn] in C. rewrite Nat.eqb_refl in C.
        pose proof (cn_in b u2 Ib). pose proof (cn_nonneg b u1). pose proof (cn_nonneg b v).
        destruct (b =? a)%nat, (b =? pt a)%nat; cbn [b2z] in C; lia.
    + destruct (in_split _ _ Ib) as [v1 [v2 Ev]]. apply (jc_side pt a b u v u1 u2 v1 v2 Eu Ev B2).
      apply (Inn (u ++ [a]) b v1 v2); [rewrite E, Ev; apps; reflexivity|exact Eb].
  - destruct (in_split _ _ Ia) as [v1 [v2 Ev]].
    assert (B2 : bal pt (b :: v1)).
    { apply (Inn u a (b :: v1) v2); [rewrite E, Ev; reflexivity|exact Ea]. }
    assert (Ib2 : In (pt b) v1).
    { destruct (bal_closed pt _ B2 b (or_introl eq_refl)) as [K|K]; [exfalso; apply Db; congruence|exact K]. }
    destruct (in_split _ _ Ib2) as [w1 [w2 Ew]].
    assert (B3 : bal pt w1).
    { apply (Inn (u ++ [a]) b w1 (w2 ++ pt a :: v2)); [rewrite E, Ev, Ew; apps; reflexivity|exact Eb]. }
    apply (jc_right pt a b u v w1 w2 v2); [rewrite Ev, Ew, <- app_assoc; reflexivity|exact B3|].
    assert (S2 : NoDup (b :: v1)).
    { apply (Sub (u ++ [a]) _ (pt a :: v2)). rewrite E, Ev. apps. reflexivity. }
    rewrite Ew in S2, B2. change w2 with ([] ++ w2). apply (bal_remove pt (b :: w1 ++ [pt b])).
    { apply bal_cons; [exact Eb|exact B3|constructor]. }
    { revert B2. apps. tauto. } { revert S2. apps. tauto. }
Qed.

Lemma split3 (q1 q2 u v : list nat) a b : q1 ++ q2 = u ++ a :: b :: v ->
  (exists z, u = q1 ++ z /\ q2 = z ++ a :: b :: v) \/ (q1 = u ++ [a] /\ q2 = b :: v) \/
  (exists z, q1 = u ++ a :: b :: z /\ v = z ++ q2).
Proof.
  intros E. destruct (app_split q1 q2 u (b :: v) a E) as [[z [Z1 Z2]]|[z [Z1 Z2]]].
  - left. exists z. tauto.
  - destruct z as [|z0 z]; cbn [app] in Z2.
    + right. left. subst. split; reflexivity.
    + injection Z2 as Z3 Z4. subst z0. right. right. exists z. tauto.
Qed.

(* the end [i] with the gap on the side of the solid: the upper side for the
   first, third, ... end from below *)
Definition sgap (pt : nat -> nat) (w : nat -> Z) (q : list nat) (i : nat) : Prop :=
  exists q1 q2, q = q1 ++ i :: q2 /\
    (if odd_len q1 then gap pt w q1 (i :: q2) else gap pt w (q1 ++ [i]) q2).

Section Join.
Variables (pt pt' : nat -> nat) (a b : nat) (u v : list nat).
Hypothesis Qq : wfq pt (u ++ a :: b :: v).
Hypothesis Bq : bal pt (u ++ a :: b :: v).
Hypothesis Nab : pt a <> b.
Hypothesis J1 : pt' (pt a) = pt b.
Hypothesis J2 : pt' (pt b) = pt a.
Hypothesis J3 : forall i, In i (u ++ v) -> i <> pt a -> i <> pt b -> pt' i = pt i.

Lemma join_facts : cn a (u ++ v) = 0 /\ cn b (u ++ v) = 0 /\ a <> b /\
  In (pt a) (u ++ v) /\ In (pt b) (u ++ v) /\ pt a <> pt b /\ pt a <> a /\ pt b <> b /\ pt b <> a /\
  pt (pt a) = a /\ pt (pt b) = b /\ NoDup (u ++ v) /\
  forall i, In i (u ++ v) -> i <> a /\ i <> b /\ (i <> pt a -> i <> pt b -> In (pt i) (u ++ v)) /\ pt (pt i) = i /\ pt i <> i.
Proof.
  destruct Qq as [N Q].
  assert (Ha : In a (u ++ a :: b :: v)) by inl. assert (Hb : In b (u ++ a :: b :: v)) by inl.
  destruct (Q a Ha) as [Ia [Da Ea]]. destruct (Q b Hb) as [Ib [Db Eb]].
  assert (C : forall i, cn i (u ++ v) + b2z (i =? a)%nat + b2z (i =? b)%nat <= 1).
  { intros i. pose proof (nodup_count _ N i) as C. rewrite cn_app in C |- *. cbn [cn] in C. lia. }
  pose proof (C a) as Ca. pose proof (C b) as Cb. rewrite Nat.eqb_refl in Ca, Cb. cbn [b2z] in Ca, Cb.
  pose proof (cn_nonneg a (u ++ v)) as Pa. pose proof (cn_nonneg b (u ++ v)) as Pb.
  assert (Eab : a <> b). { intros ->. rewrite Nat.eqb_refl in Ca. cbn [b2z] in Ca. lia. }
  assert (Hna : pt b <> a) by (intros K; apply Nab; rewrite <- K; exact Eb).
  assert (Iu : forall i, In i (u ++ a :: b :: v) -> i <> a -> i <> b -> In i (u ++ v)).
  { intros i. rewrite !in_app_iff. cbn [In]. intuition congruence. }
  assert (Iv : forall i, In i (u ++ v) -> In i (u ++ a :: b :: v)).
  { intros i. rewrite !in_app_iff. cbn [In]. tauto. }
  assert (Na : forall i, In i (u ++ v) -> i <> a /\ i <> b).
  { intros i Hi. pose proof (cn_in i _ Hi) as Ci. pose proof (C i) as Ci2. split; intros ->; rewrite Nat.eqb_refl in Ci2; cbn [b2z] in Ci2.
    - destruct (a =? b)%nat; cbn [b2z] in Ci2; lia.
    - destruct (b =? a)%nat; cbn [b2z] in Ci2; lia. }
  split. { destruct (a =? b)%nat; cbn [b2z] in Ca; lia. }
  split. { destruct (b =? a)%nat; cbn [b2z] in Cb; lia. }
  split; [exact Eab|]. split; [apply Iu; [exact Ia|exact Da|exact Nab]|]. split; [apply Iu; [exact Ib|exact Hna|exact Db]|].
  split; [intros K; apply Eab; rewrite <- Ea, <- Eb, K; reflexivity|].
  split; [exact Da|]. split; [exact Db|]. split; [exact Hna|]. split; [exact Ea|]. split; [exact Eb|].
  split. { apply (nodup_del u [a; b] v). exact N. }
  intros i Hi. destruct (Na i Hi) as [A1 A2]. destruct (Q i (Iv i Hi)) as [B1 [B2 B3]].
  split; [exact A1|]. split; [exact A2|]. split; [|split; assumption]. intros K1 K2. apply Iu; [exact B1| |]; intros K; congruence.
Qed.

Lemma join_wfq : wfq pt' (u ++ v).
Proof.
  destruct join_facts as [_ [_ [_ [Ia [Ib [Dab [_ [_ [_ [_ [_ [N F]]]]]]]]]]]]. split; [exact N|]. intros i Hi.
  destruct (F i Hi) as [A1 [A2 [A3 [A4 A5]]]].
  destruct (Nat.eq_dec i (pt a)) as [->|E1]; [rewrite J1; repeat split; [exact Ib|congruence|exact J2]|].
  destruct (Nat.eq_dec i (pt b)) as [->|E2]; [rewrite J2; repeat split; [exact Ia|congruence|exact J1]|].
  rewrite (J3 i Hi E1 E2). specialize (A3 E1 E2). repeat split; [exact A3|exact A5|].
  rewrite J3; [exact A4|exact A3| |]; intros K; [apply A1|apply A2]; rewrite <- A4, K.
  - destruct join_facts as [_ [_ [_ [_ [_ [_ [_ [_ [_ [E _]]]]]]]]]]. exact E.
  - destruct join_facts as [_ [_ [_ [_ [_ [_ [_ [_ [_ [_ [E _]]]]]]]]]]]. exact E.
Qed.

Lemma join_case_of : join_case pt a b u v.
Proof. apply (join_cases pt _ a b u v Qq Bq eq_refl Nab). Qed.

(* balanced parts without the two ends are balanced for the new partners *)
Lemma join_bal_part m : bal pt m -> (forall i, In i m -> In i (u ++ v)) -> bal pt' m.
Proof.
  intros Bm Inc. apply (bal_ext pt pt' m Bm). intros i Hi.
  destruct join_facts as [Ca [Cb [_ [_ [_ [_ [_ [_ [_ [Ea [Eb _]]]]]]]]]]].
  apply J3; [exact (Inc i Hi)| |]; intros ->; apply (bal_closed pt m Bm) in Hi.
  - rewrite Ea in Hi. apply Inc in Hi. apply cn_in in Hi. lia.
  - rewrite Eb in Hi. apply Inc in Hi. apply cn_in in Hi. lia.
Qed.

Lemma join_bal : bal pt' (u ++ v).
Proof.
  pose proof Qq as [N Q]. destruct join_facts as [_ [_ [_ [Ia [Ib [Dab [_ [_ [_ [Ea [Eb [N2 F]]]]]]]]]]]].
  destruct join_case_of as [u1 u2 v1 v2 Eu Ev B1 B2|v1 v2 v3 Ev B1 B2|u1 u2 u3 Eu B1 B2].
  - assert (Bk : bal pt (pt a :: u2 ++ a :: b :: v1 ++ [pt b])).
    { change (pt a :: u2 ++ a :: b :: v1 ++ [pt b]) with (pt a :: (u2 ++ [a] ++ b :: v1 ++ [pt b])).
      replace (pt a :: u2 ++ [a] ++ b :: v1 ++ [pt b]) with ((pt a :: u2 ++ [pt (pt a)]) ++ (b :: v1 ++ [pt b])) by (rewrite Ea; apps; reflexivity).
      apply bal_app; [apply bal_cons; [congruence|exact B1|constructor]|apply bal_cons; [congruence|exact B2|constructor]]. }
    assert (R : bal pt (u1 ++ v2)).
    { apply (bal_remove pt _ Bk); [revert Bq|revert N]; rewrite Eu, Ev; apps; tauto. }
    rewrite Eu, Ev. replace ((u1 ++ pt a :: u2) ++ v1 ++ pt b :: v2) with (u1 ++ (pt a :: (u2 ++ v1) ++ [pt' (pt a)]) ++ v2) by (rewrite J1; apps; reflexivity).
    apply bal_insert.
    + apply join_bal_part; [exact R|]. intros i. rewrite Eu, Ev. repeat rewrite in_app_iff. cbn [In]. tauto.
    + apply bal_cons; [rewrite J1; exact J2| |constructor]. apply bal_app.
      * apply join_bal_part; [exact B1|]. intros i. rewrite Eu, Ev. repeat rewrite in_app_iff. cbn [In]. tauto.
      * apply join_bal_part; [exact B2|]. intros i. rewrite Eu, Ev. repeat rewrite in_app_iff. cbn [In]. tauto.
  - assert (Bk : bal pt (a :: b :: v1 ++ pt b :: v2 ++ [pt a])).
    { replace (a :: b :: v1 ++ pt b :: v2 ++ [pt a]) with (a :: (b :: v1 ++ pt b :: v2) ++ [pt a]) by (apps; reflexivity).
      apply bal_cons; [exact Ea| |constructor]. apply bal_cons; assumption. }
    assert (R : bal pt (u ++ v3)).
    { apply (bal_remove pt _ Bk); [revert Bq|revert N]; rewrite Ev; apps; tauto. }
    rewrite Ev. replace (u ++ v1 ++ pt b :: v2 ++ pt a :: v3) with (u ++ (v1 ++ pt b :: v2 ++ [pt' (pt b)]) ++ v3) by (rewrite J2; apps; reflexivity).
    apply bal_insert.
    + apply join_bal_part; [exact R|]. intros i. rewrite Ev. repeat first [rewrite in_app_iff | progress cbn [In]]. tauto.
    + apply bal_app.
      * apply join_bal_part; [exact B1|]. intros i. rewrite Ev. repeat first [rewrite in_app_iff | progress cbn [In]]. tauto.
      * apply bal_cons; [rewrite J2; exact J1| |constructor].
        apply join_bal_part; [exact B2|]. intros i. rewrite Ev. repeat first [rewrite in_app_iff | progress cbn [In]]. tauto.
  - assert (Bk : bal pt (pt b :: u2 ++ pt a :: u3 ++ [a; b])).
    { replace (pt b :: u2 ++ pt a :: u3 ++ [a; b]) with (pt b :: (u2 ++ pt a :: u3 ++ [pt (pt a)]) ++ [pt (pt b)]) by (rewrite Ea, Eb; apps; reflexivity).
      apply bal_cons; [congruence| |constructor]. apply bal_app; [exact B1|]. apply bal_cons; [congruence|exact B2|constructor]. }
    assert (R : bal pt (u1 ++ v)).
    { apply (bal_remove pt _ Bk); [revert Bq|revert N]; rewrite Eu; apps; tauto. }
    rewrite Eu. replace ((u1 ++ pt b :: u2 ++ pt a :: u3) ++ v) with (u1 ++ ((pt b :: u2 ++ [pt' (pt b)]) ++ u3) ++ v) by (rewrite J2; apps; reflexivity).
    apply bal_insert.
    + apply join_bal_part; [exact R|]. intros i. rewrite Eu. repeat first [rewrite in_app_iff | progress cbn [In]]. tauto.
    + apply bal_app.
      * apply bal_cons; [rewrite J2; exact J1| |constructor].
        apply join_bal_part; [exact B1|]. intros i. rewrite Eu. repeat first [rewrite in_app_iff | progress cbn [In]]. tauto.
      * apply join_bal_part; [exact B2|]. intros i. rewrite Eu. repeat first [rewrite in_app_iff | progress cbn [In]]. tauto.
Qed.

Variables (w w' : nat -> Z).
Hypothesis W1 : w' (pt a) = w (pt a) + w b.
Hypothesis W2 : w' (pt b) = w (pt b) + w a.
Hypothesis W3 : forall i, In i (u ++ v) -> i <> pt a -> i <> pt b -> w' i = w i.

Lemma join_gap_gen q1 q2 r1 r2 k : q1 ++ q2 = u ++ a :: b :: v -> u ++ v = r1 ++ r2 -> gap pt w q1 q2 ->
  cn a q1 - cn b q1 = k ->
  (cn (pt a) r1 - cn (pt a) q1) - (cn (pt b) r1 - cn (pt b) q1) = - k ->
  (forall i, In i (u ++ v) -> i <> pt a -> i <> pt b -> cn i r1 - cn i q1 = cn (pt i) r1 - cn (pt i) q1) ->
  gap pt' w' r1 r2.
Proof.
  intros E E' G K D1 D2 i Hi. rewrite <- E' in Hi. unfold gap in G. rewrite E in G.
  destruct join_facts as [_ [_ [_ [Ia [Ib [Dab [_ [_ [_ [Ea [Eb [_ F]]]]]]]]]]]].
  assert (Ga : w a = cn a q1 - cn (pt a) q1) by (apply G; inl).
  assert (Gb : w b = cn b q1 - cn (pt b) q1) by (apply G; inl).
  assert (Up : forall j, In j (u ++ v) -> In j (u ++ a :: b :: v)) by (intros j; rewrite !in_app_iff; cbn [In]; tauto).
  destruct (Nat.eq_dec i (pt a)) as [->|E1].
  - rewrite W1, J1, Gb. rewrite (G (pt a)) by (apply Up; exact Ia). rewrite Ea. lia.
  - destruct (Nat.eq_dec i (pt b)) as [->|E2].
    + rewrite W2, J2, Ga. rewrite (G (pt b)) by (apply Up; exact Ib). rewrite Eb. lia.
    + rewrite (W3 i Hi E1 E2), (J3 i Hi E1 E2), (G i (Up i Hi)). specialize (D2 i Hi E1 E2). lia.
Qed.

Lemma join_gap_low u1 u2 : u = u1 ++ u2 -> gap pt w u1 (u2 ++ a :: b :: v) -> gap pt' w' u1 (u2 ++ v).
Proof.
  intros E G. destruct join_facts as [Ca [Cb _]]. rewrite E, <- app_assoc, cn_app in Ca, Cb.
  pose proof (cn_nonneg a u1). pose proof (cn_nonneg a (u2 ++ v)). pose proof (cn_nonneg b u1). pose proof (cn_nonneg b (u2 ++ v)).
  apply (join_gap_gen u1 (u2 ++ a :: b :: v) u1 (u2 ++ v) 0); [rewrite E; apps; reflexivity|rewrite E; apps; reflexivity|exact G|lia|lia|].
  intros i _ _ _. lia.
Qed.
Lemma join_gap_high v1 v2 : v = v1 ++ v2 -> gap pt w (u ++ a :: b :: v1) v2 -> gap pt' w' (u ++ v1) v2.
Proof.
  intros E G. destruct join_facts as [Ca [Cb [Dab [Ia [Ib [_ [Da [Db [Dba [Ea [Eb [_ F]]]]]]]]]]]].
  rewrite E, app_assoc, cn_app in Ca, Cb.
  pose proof (cn_nonneg a (u ++ v1)). pose proof (cn_nonneg a v2). pose proof (cn_nonneg b (u ++ v1)). pose proof (cn_nonneg b v2).
  assert (X : forall i, cn i (u ++ a :: b :: v1) = cn i (u ++ v1) + b2z (i =? a)%nat + b2z (i =? b)%nat) by (intros i; rewrite !cn_app; cbn [cn]; lia).
  assert (Y : forall i, i <> a -> i <> b -> cn i (u ++ a :: b :: v1) = cn i (u ++ v1)).
  { intros i A B. rewrite X. apply Nat.eqb_neq in A, B. rewrite A, B. cbn [b2z]. lia. }
  apply (join_gap_gen (u ++ a :: b :: v1) v2 (u ++ v1) v2 0); [rewrite E; apps; reflexivity|rewrite E; apps; reflexivity|exact G| | |].
  - rewrite !X, !Nat.eqb_refl. replace (a =? b)%nat with false by (symmetry; apply Nat.eqb_neq; congruence).
    replace (b =? a)%nat with false by (symmetry; apply Nat.eqb_neq; congruence). cbn [b2z]. lia.
  - rewrite !Y by (assumption || congruence). lia.
  - intros i Hi K1 K2. destruct (F i Hi) as [A1 [A2 [A3 [A4 A5]]]]. destruct (F (pt i) (A3 K1 K2)) as [B1 [B2 _]].
    rewrite !Y by assumption. lia.
Qed.

(* the gap between the two ends *)
Lemma join_gap_mid : gap pt w (u ++ [a]) (b :: v) -> exists r1 r2, u ++ v = r1 ++ r2 /\ gap pt' w' r1 r2 /\
  odd_len r1 = negb (odd_len u) /\ (odd_len u = false -> sgap pt' w' (u ++ v) (pt a)).
Proof.
  intros G. destruct join_facts as [Ca [Cb [Dab [Ia [Ib [Dpp [Da [Db [Dba [Ea [Eb [N2 F]]]]]]]]]]]].
  pose proof Qq as [N Q]. pose proof (nodup_count _ N2) as Cn. pose proof join_wfq as Q'.
  assert (Na : cn a (u ++ [a]) = 1 /\ cn b (u ++ [a]) = 0).
  { rewrite cn_app in Ca, Cb. rewrite !cn_app. cbn [cn]. rewrite Nat.eqb_refl. replace (b =? a)%nat with false by (symmetry; apply Nat.eqb_neq; congruence).
    cbn [b2z]. pose proof (cn_nonneg a u). pose proof (cn_nonneg a v). pose proof (cn_nonneg b u). pose proof (cn_nonneg b v). lia. }
  assert (Ne : forall i, In i (u ++ v) -> (i =? a)%nat = false /\ (i =? b)%nat = false).
  { intros i Hi. destruct (F i Hi) as [A1 [A2 _]]. split; apply Nat.eqb_neq; assumption. }
  assert (Bc : forall m, bal pt m -> (forall i, In i m -> In i (u ++ v)) -> NoDup m -> forall i, In i (u ++ v) -> cn (pt i) m = cn i m).
  { intros m Bm Inc Nm i Hi. apply (bal_cn pt (u ++ a :: b :: v)); [exact Qq|exact Bm| |exact Nm|].
    - intros j Hj. specialize (Inc j Hj). revert Inc. rewrite !in_app_iff. cbn [In]. tauto.
    - revert Hi. rewrite !in_app_iff. cbn [In]. tauto. }
  assert (Nm : forall x m y, u ++ v = x ++ m ++ y -> NoDup m /\ forall i, In i m -> In i (u ++ v)).
  { intros x m y E. rewrite E in N2 |- *. split; [exact (nodup_mid _ _ _ N2)|]. intros i Hi. rewrite !in_app_iff. tauto. }
  assert (Pab : (pt a =? pt b)%nat = false /\ (pt b =? pt a)%nat = false) by (split; apply Nat.eqb_neq; congruence).
  destruct Pab as [Pab Pba]. destruct (Ne _ Ia) as [Ea1 Ea2]. destruct (Ne _ Ib) as [Eb1 Eb2].
  destruct join_case_of as [u1 u2 v1 v2 Eu Ev B1 B2|v1 v2 v3 Ev B1 B2|u1 u2 u3 Eu B1 B2].
  - destruct (Nm (u1 ++ [pt a]) u2 v) as [N3 Inc3]; [rewrite Eu; apps; reflexivity|].
    assert (G' : gap pt' w' u1 (pt a :: u2 ++ v)).
    { apply (join_gap_gen (u ++ [a]) (b :: v) u1 (pt a :: u2 ++ v) 1); [apps; reflexivity|rewrite Eu; apps; reflexivity|exact G|lia| |].
      - rewrite !cn_app. cbn [cn]. rewrite Ea1, Eb1. pose proof (Cn (pt a)) as C1. pose proof (Cn (pt b)) as C2.
        pose proof (cn_in _ _ Ib) as C3. rewrite Eu, Ev in C1, C2. rewrite ?cn_app in C1, C2. cbn [cn] in C1, C2. rewrite ?cn_app in C1, C2. cbn [cn] in C1, C2.
        rewrite Eu, !cn_app. cbn [cn]. rewrite ?Nat.eqb_refl, ?Pab, ?Pba in *. cbn [b2z] in *.
        pose proof (cn_nonneg (pt a) u1). pose proof (cn_nonneg (pt a) u2). pose proof (cn_nonneg (pt a) v1). pose proof (cn_nonneg (pt a) v2).
        pose proof (cn_nonneg (pt b) u1). pose proof (cn_nonneg (pt b) u2). pose proof (cn_nonneg (pt b) v1). pose proof (cn_nonneg (pt b) v2). lia.
      - intros i Hi K1 K2. destruct (F i Hi) as [A1 [A2 [A3 [A4 A5]]]]. specialize (A3 K1 K2). destruct (Ne i Hi) as [I1 I2]. destruct (Ne _ A3) as [I3 I4].
        rewrite Eu, ?cn_app. cbn [cn]. rewrite ?cn_app. cbn [cn]. rewrite I1, I3. apply Nat.eqb_neq in K1. rewrite K1.
        replace (pt i =? pt a)%nat with false by (symmetry; apply Nat.eqb_neq; intros K; apply A1; rewrite <- A4, K; exact Ea).
        rewrite (Bc u2 B1 Inc3 N3 i Hi). cbn [b2z]. lia. }
    exists u1, (pt a :: u2 ++ v). split; [rewrite Eu; apps; reflexivity|]. split; [exact G'|].
    assert (O : odd_len u1 = negb (odd_len u)).
    { rewrite Eu, odd_len_app, odd_len_cons, (bal_even _ _ B1). destruct (odd_len u1); reflexivity. }
    split; [exact O|]. intros O1. exists u1, (u2 ++ v). split; [rewrite Eu; apps; reflexivity|]. rewrite O, O1. exact G'.
  - destruct (Nm u v1 (pt b :: v2 ++ pt a :: v3)) as [N3 Inc3]; [rewrite Ev; apps; reflexivity|].
    assert (G' : gap pt' w' (u ++ v1 ++ [pt b]) (v2 ++ pt a :: v3)).
    { apply (join_gap_gen (u ++ [a]) (b :: v) (u ++ v1 ++ [pt b]) (v2 ++ pt a :: v3) 1); [apps; reflexivity|rewrite Ev; apps; reflexivity|exact G|lia| |].
      - rewrite !cn_app. cbn [cn]. rewrite Ea1, Eb1. pose proof (Cn (pt a)) as C1. pose proof (Cn (pt b)) as C2.
        rewrite Ev in C1, C2. rewrite ?cn_app in C1, C2. cbn [cn] in C1, C2. rewrite ?cn_app in C1, C2. cbn [cn] in C1, C2.
        rewrite ?Nat.eqb_refl, ?Pab, ?Pba in *. cbn [b2z] in *.
        pose proof (cn_nonneg (pt a) u). pose proof (cn_nonneg (pt a) v1). pose proof (cn_nonneg (pt a) v2). pose proof (cn_nonneg (pt a) v3).
        pose proof (cn_nonneg (pt b) u). pose proof (cn_nonneg (pt b) v1). pose proof (cn_nonneg (pt b) v2). pose proof (cn_nonneg (pt b) v3). lia.
      - intros i Hi K1 K2. destruct (F i Hi) as [A1 [A2 [A3 [A4 A5]]]]. specialize (A3 K1 K2). destruct (Ne i Hi) as [I1 I2]. destruct (Ne _ A3) as [I3 I4].
        rewrite !cn_app. cbn [cn]. rewrite I1, I3. apply Nat.eqb_neq in K2. rewrite K2.
        replace (pt i =? pt b)%nat with false by (symmetry; apply Nat.eqb_neq; intros K; apply A2; rewrite <- A4, K; exact Eb).
        rewrite (Bc v1 B1 Inc3 N3 i Hi). cbn [b2z]. lia. }
    exists (u ++ v1 ++ [pt b]), (v2 ++ pt a :: v3). split; [rewrite Ev; apps; reflexivity|]. split; [exact G'|].
    assert (O : odd_len (u ++ v1 ++ [pt b]) = negb (odd_len u)).
    { rewrite !odd_len_app, (bal_even _ _ B1). cbn. destruct (odd_len u); reflexivity. }
    split; [exact O|]. intros O1. exists (u ++ v1 ++ [pt b] ++ v2), v3. split; [rewrite Ev; apps; reflexivity|].
    replace (odd_len (u ++ v1 ++ [pt b] ++ v2)) with true.
    2:{ rewrite !odd_len_app, (bal_even _ _ B1), (bal_even _ _ B2), O1. reflexivity. }
    replace (u ++ v1 ++ [pt b] ++ v2) with ((u ++ v1 ++ [pt b]) ++ v2) by (apps; reflexivity).
    apply gap_move; [| |exact G'].
    + replace ((u ++ v1 ++ [pt b]) ++ v2 ++ pt a :: v3) with (u ++ v) by (rewrite Ev; apps; reflexivity). exact Q'.
    + apply join_bal_part; [exact B2|]. intros i. rewrite Ev. repeat first [rewrite in_app_iff | progress cbn [In]]. tauto.
  - destruct (Nm (u1 ++ pt b :: u2 ++ [pt a]) u3 v) as [N3 Inc3]; [rewrite Eu; apps; reflexivity|].
    assert (G' : gap pt' w' (u1 ++ pt b :: u2) (pt a :: u3 ++ v)).
    { apply (join_gap_gen (u ++ [a]) (b :: v) (u1 ++ pt b :: u2) (pt a :: u3 ++ v) 1); [apps; reflexivity|rewrite Eu; apps; reflexivity|exact G|lia| |].
      - rewrite !cn_app. cbn [cn]. rewrite Ea1, Eb1. pose proof (Cn (pt a)) as C1. pose proof (Cn (pt b)) as C2.
        rewrite Eu in C1, C2. rewrite ?cn_app in C1, C2. cbn [cn] in C1, C2. rewrite ?cn_app in C1, C2. cbn [cn] in C1, C2.
        rewrite Eu, ?cn_app. cbn [cn]. rewrite ?cn_app. cbn [cn]. rewrite ?Nat.eqb_refl, ?Pab, ?Pba in *. cbn [b2z] in *.
        pose proof (cn_nonneg (pt a) u1). pose proof (cn_nonneg (pt a) u2). pose proof (cn_nonneg (pt a) u3). pose proof (cn_nonneg (pt a) v).
        pose proof (cn_nonneg (pt b) u1). pose proof (cn_nonneg (pt b) u2). pose proof (cn_nonneg (pt b) u3). pose proof (cn_nonneg (pt b) v). lia.
      - intros i Hi K1 K2. destruct (F i Hi) as [A1 [A2 [A3 [A4 A5]]]]. specialize (A3 K1 K2). destruct (Ne i Hi) as [I1 I2]. destruct (Ne _ A3) as [I3 I4].
        rewrite Eu, ?cn_app. cbn [cn]. rewrite ?cn_app. cbn [cn]. rewrite I1, I3. apply Nat.eqb_neq in K1. rewrite K1.
        replace (pt i =? pt a)%nat with false by (symmetry; apply Nat.eqb_neq; intros K; apply A1; rewrite <- A4, K; exact Ea).
        rewrite (Bc u3 B2 Inc3 N3 i Hi). cbn [b2z]. lia. }
    exists (u1 ++ pt b :: u2), (pt a :: u3 ++ v). split; [rewrite Eu; apps; reflexivity|]. split; [exact G'|].
    assert (O : odd_len (u1 ++ pt b :: u2) = negb (odd_len u)).
    { rewrite Eu, !odd_len_app, !odd_len_cons, odd_len_app, odd_len_cons, (bal_even _ _ B1), (bal_even _ _ B2). destruct (odd_len u1); reflexivity. }
    split; [exact O|]. intros O1. exists (u1 ++ pt b :: u2), (u3 ++ v). split; [rewrite Eu; apps; reflexivity|]. rewrite O, O1. exact G'.
Qed.

(* the gap on the outer sides, when the solid is outside *)
Lemma join_gap_outer : odd_len u = true -> gap pt' w' u v -> sgap pt' w' (u ++ v) (pt a).
Proof.
  intros O G. pose proof join_wfq as Q'. destruct join_case_of as [u1 u2 v1 v2 Eu Ev B1 B2|v1 v2 v3 Ev B1 B2|u1 u2 u3 Eu B1 B2].
  - exists u1, (u2 ++ v). split; [rewrite Eu; apps; reflexivity|].
    replace (odd_len u1) with false.
    2:{ rewrite Eu, odd_len_app, odd_len_cons, (bal_even _ _ B1) in O. destruct (odd_len u1); [discriminate O|reflexivity]. }
    apply gap_move; [| |].
    + replace ((u1 ++ [pt a]) ++ u2 ++ v) with (u ++ v) by (rewrite Eu; apps; reflexivity). exact Q'.
    + apply join_bal_part; [exact B1|]. intros i. rewrite Eu. repeat first [rewrite in_app_iff | progress cbn [In]]. tauto.
    + replace ((u1 ++ [pt a]) ++ u2) with u by (rewrite Eu; apps; reflexivity). exact G.
  - exists (u ++ v1 ++ pt b :: v2), v3. split; [rewrite Ev; apps; reflexivity|].
    replace (odd_len (u ++ v1 ++ pt b :: v2)) with false.
    2:{ rewrite !odd_len_app, odd_len_cons, (bal_even _ _ B1), (bal_even _ _ B2), O. reflexivity. }
    replace ((u ++ v1 ++ pt b :: v2) ++ [pt a]) with (u ++ (v1 ++ pt b :: v2 ++ [pt' (pt b)])) by (rewrite J2; apps; reflexivity).
    apply gap_move.
    + replace (u ++ (v1 ++ pt b :: v2 ++ [pt' (pt b)]) ++ v3) with (u ++ v) by (rewrite Ev, J2; apps; reflexivity). exact Q'.
    + apply bal_app.
      * apply join_bal_part; [exact B1|]. intros i. rewrite Ev. repeat first [rewrite in_app_iff | progress cbn [In]]. tauto.
      * apply bal_cons; [rewrite J2; exact J1| |constructor].
        apply join_bal_part; [exact B2|]. intros i. rewrite Ev. repeat first [rewrite in_app_iff | progress cbn [In]]. tauto.
    + replace ((v1 ++ pt b :: v2 ++ [pt' (pt b)]) ++ v3) with v by (rewrite Ev, J2; apps; reflexivity). exact G.
  - exists (u1 ++ pt b :: u2), (u3 ++ v). split; [rewrite Eu; apps; reflexivity|].
    replace (odd_len (u1 ++ pt b :: u2)) with false.
    2:{ rewrite Eu, !odd_len_app, !odd_len_cons, odd_len_app, odd_len_cons, (bal_even _ _ B1), (bal_even _ _ B2) in O.
        rewrite odd_len_app, odd_len_cons, (bal_even _ _ B1). destruct (odd_len u1); [reflexivity|discriminate O]. }
    apply gap_move.
    + replace (((u1 ++ pt b :: u2) ++ [pt a]) ++ u3 ++ v) with (u ++ v) by (rewrite Eu; apps; reflexivity). exact Q'.
    + apply join_bal_part; [exact B2|]. intros i. rewrite Eu. repeat first [rewrite in_app_iff | progress cbn [In]]. tauto.
    + replace (((u1 ++ pt b :: u2) ++ [pt a]) ++ u3) with u by (rewrite Eu; apps; reflexivity). exact G.
Qed.
End Join.

(* ---------- a cell: its gap, and the holes that lie over it ---------- *)
Lemma zsum_app {A : Type} (f : A -> Z) l m : zsum f (l ++ m) = zsum f l + zsum f m.
Proof. induction l as [|x l IH]; cbn [zsum fold_right app] in *; [reflexivity|]. unfold zsum in *. lia. Qed.
Lemma zsum_one {A : Type} (f : A -> Z) x l : zsum f (x :: l) = f x + zsum f l.
Proof. reflexivity. Qed.
Lemma zsum_ext_in {A : Type} (f g : A -> Z) l : (forall x, In x l -> f x = g x) -> zsum f l = zsum g l.
Proof.
  induction l as [|x l IH]; intros H; [reflexivity|]. rewrite !zsum_one, (H x (or_introl eq_refl)), IH; [reflexivity|].
  intros y Hy. apply H. right. exact Hy.
Qed.
Lemma zsum_upd (f f' : nat -> Z) k d l : NoDup l -> In k l -> (forall i, In i l -> i <> k -> f' i = f i) -> f' k = f k + d ->
  zsum f' l = zsum f l + d.
Proof.
  intros N Hk H Hd. destruct (in_split _ _ Hk) as [l1 [l2 E]]. rewrite E, !zsum_app, !zsum_one, Hd.
  rewrite E in N. pose proof (NoDup_remove_2 _ _ _ N) as K. rewrite in_app_iff in K.
  rewrite (zsum_ext_in f' f l1), (zsum_ext_in f' f l2); [lia| |].
  - intros i Hi. apply H; [rewrite E, in_app_iff; cbn [In]; tauto|]. intros ->. tauto.
  - intros i Hi. apply H; [rewrite E, in_app_iff; cbn [In]; tauto|]. intros ->. tauto.
Qed.
Lemma zsum_pos (f : nat -> Z) l : (forall i, In i l -> 0 <= f i) -> 0 < zsum f l -> exists i, In i l /\ 0 < f i.
Proof.
  induction l as [|x l IH]; intros H K; [unfold zsum in K; cbn in K; lia|]. rewrite zsum_one in K.
  destruct (Z_lt_dec 0 (f x)) as [L|L]; [exists x; split; [left; reflexivity|exact L]|].
  destruct IH as [i [Hi Pi]]; [intros i Hi; apply H; right; exact Hi|specialize (H x (or_introl eq_refl)); lia|].
  exists i. split; [right; exact Hi|exact Pi].
Qed.
Lemma zsum_ge (f : nat -> Z) l : (forall i, In i l -> 0 <= f i) -> 0 <= zsum f l.
Proof.
  induction l as [|x l IH]; intros H; [unfold zsum; cbn; lia|]. rewrite zsum_one.
  specialize (IH (fun i Hi => H i (or_intror Hi))). specialize (H x (or_introl eq_refl)). lia.
Qed.

Record cell (pt : nat -> nat) (w hs : nat -> Z) (q : list nat) (c : Z) : Prop := {
  ce_gap : exists q1 q2, q = q1 ++ q2 /\ gap pt w q1 q2 /\ c = b2z (odd_len q1) - zsum hs q;
  ce_pos : forall i, In i q -> 0 <= hs i;
  ce_one : zsum hs q <= 1;
  ce_side : forall i, In i q -> 0 < hs i -> sgap pt w q i }.

Lemma gap_ext pt pt' w w' q1 q2 : (forall i, In i (q1 ++ q2) -> pt' i = pt i /\ w' i = w i) -> gap pt w q1 q2 -> gap pt' w' q1 q2.
Proof. intros H G i Hi. destruct (H i Hi) as [-> ->]. apply G. exact Hi. Qed.
Lemma sgap_ext pt pt' w w' q i : (forall i, In i q -> pt' i = pt i /\ w' i = w i) -> sgap pt w q i -> sgap pt' w' q i.
Proof.
  intros H [q1 [q2 [E G]]]. exists q1, q2. split; [exact E|]. destruct (odd_len q1); apply (gap_ext pt pt' w w'); try exact G.
  - intros j Hj. apply H. rewrite E. exact Hj.
  - intros j Hj. apply H. rewrite E. revert Hj. apps. tauto.
Qed.
Lemma cell_ext pt pt' w w' hs hs' q c : (forall i, In i q -> pt' i = pt i /\ w' i = w i /\ hs' i = hs i) ->
  cell pt w hs q c -> cell pt' w' hs' q c.
Proof.
  intros H [[q1 [q2 [E [G C]]]] P O S].
  assert (Z : zsum hs' q = zsum hs q) by (apply zsum_ext_in; intros i Hi; apply H; exact Hi).
  split.
  - exists q1, q2. split; [exact E|]. split; [|rewrite Z; exact C]. apply (gap_ext pt pt' w w'); [|exact G].
    intros i Hi. rewrite <- E in Hi. destruct (H i Hi) as [A [B _]]. split; assumption.
  - intros i Hi. destruct (H i Hi) as [_ [_ ->]]. apply P. exact Hi.
  - rewrite Z. exact O.
  - intros i Hi. pose proof (H i Hi) as [_ [_ ->]]. intros K. apply (sgap_ext pt pt' w w'); [|apply S; assumption].
    intros j Hj. destruct (H j Hj) as [A [B _]]. split; assumption.
Qed.

(* where the end i is, in a sequence with two neighbours picked out *)
Lemma split_end (q1 q2 u v : list nat) a b i : q1 ++ i :: q2 = u ++ a :: b :: v ->
  (exists z, u = q1 ++ i :: z /\ q2 = z ++ a :: b :: v) \/ (i = a /\ q1 = u /\ q2 = b :: v) \/
  (i = b /\ q1 = u ++ [a] /\ q2 = v) \/ (exists z, q1 = u ++ a :: b :: z /\ v = z ++ i :: q2).
Proof.
  intros E. destruct (split3 q1 (i :: q2) u v a b E) as [[z [Z1 Z2]]|[[Z1 Z2]|[z [Z1 Z2]]]].
  - destruct z as [|z0 z]; cbn [app] in Z2; injection Z2 as Z3 Z4.
    + right. left. rewrite app_nil_r in Z1. subst. tauto.
    + left. exists z. subst. tauto.
  - injection Z2 as Z3 Z4. right. right. left. tauto.
  - right. right. right. exists z. tauto.
Qed.

Lemma cell_join pt pt' w w' hs hs' a b u v c :
  wfq pt (u ++ a :: b :: v) -> bal pt (u ++ a :: b :: v) -> pt a <> b ->
  pt' (pt a) = pt b -> pt' (pt b) = pt a -> (forall i, In i (u ++ v) -> i <> pt a -> i <> pt b -> pt' i = pt i) ->
  w' (pt a) = w (pt a) + w b -> w' (pt b) = w (pt b) + w a -> (forall i, In i (u ++ v) -> i <> pt a -> i <> pt b -> w' i = w i) ->
  hs' (pt a) = hs (pt a) + hs a + hs b -> (forall i, In i (u ++ v) -> i <> pt a -> hs' i = hs i) ->
  cell pt w hs (u ++ a :: b :: v) c -> cell pt' w' hs' (u ++ v) c.
Proof.
  intros Qq Bq Nab J1 J2 J3 W1 W2 W3 H1 H2 [[q1 [q2 [E [G C]]]] P O S].
  pose proof (join_facts pt pt' a b u v Qq Bq Nab J1 J2 J3) as [Ca [Cb [Dab [Ia [Ib [Dpp [Da [Db [Dba [Ea [Eb [N2 F]]]]]]]]]]]].
  assert (Up : forall j, In j (u ++ v) -> In j (u ++ a :: b :: v)) by (intros j; rewrite !in_app_iff; cbn [In]; tauto).
  assert (Z : zsum hs' (u ++ v) = zsum hs (u ++ a :: b :: v)).
  { rewrite (zsum_upd hs hs' (pt a) (hs a + hs b) (u ++ v) N2 Ia); [|exact H2|lia].
    rewrite !zsum_app, !zsum_one. lia. }
  assert (Low : forall u1 u2, u = u1 ++ u2 -> gap pt w u1 (u2 ++ a :: b :: v) -> gap pt' w' u1 (u2 ++ v)).
  { intros u1 u2. apply (join_gap_low pt pt' a b u v Qq Bq Nab J1 J2 J3 w w' W1 W2 W3). }
  assert (High : forall v1 v2, v = v1 ++ v2 -> gap pt w (u ++ a :: b :: v1) v2 -> gap pt' w' (u ++ v1) v2).
  { intros v1 v2. apply (join_gap_high pt pt' a b u v Qq Bq Nab J1 J2 J3 w w' W1 W2 W3). }
  pose proof (join_gap_mid pt pt' a b u v Qq Bq Nab J1 J2 J3 w w' W1 W2 W3) as Mid.
  pose proof (join_gap_outer pt pt' a b u v Qq Bq Nab J1 J2 J3 w') as Outer.
  assert (SG : forall i, In i (u ++ v) -> sgap pt w (u ++ a :: b :: v) i -> sgap pt' w' (u ++ v) i).
  { intros i Hi [r1 [r2 [Er Gr]]]. destruct (F i Hi) as [A1 [A2 _]].
    destruct (split_end r1 r2 u v a b i (eq_sym Er)) as [[z [Z1 Z2]]|[[Z1 _]|[[Z1 _]|[z [Z1 Z2]]]]]; [|congruence|congruence|].
    - exists r1, (z ++ v). split; [rewrite Z1; apps; reflexivity|]. destruct (odd_len r1).
      + change (i :: z ++ v) with ((i :: z) ++ v). apply Low; [exact Z1|]. cbn [app]. rewrite <- Z2. exact Gr.
      + apply Low; [rewrite Z1; apps; reflexivity|]. rewrite <- Z2. exact Gr.
    - exists (u ++ z), r2. split; [rewrite Z2; apps; reflexivity|].
      replace (odd_len (u ++ z)) with (odd_len r1).
      2:{ rewrite Z1, !odd_len_app, !odd_len_cons, negb_involutive. reflexivity. }
      destruct (odd_len r1).
      + apply High; [exact Z2|]. rewrite <- Z1. exact Gr.
      + replace ((u ++ z) ++ [i]) with (u ++ (z ++ [i])) by (apps; reflexivity). apply High; [rewrite Z2; apps; reflexivity|].
        replace (u ++ a :: b :: z ++ [i]) with (r1 ++ [i]) by (rewrite Z1; apps; reflexivity). exact Gr. }
  split.
  - destruct (split3 q1 q2 u v a b (eq_sym E)) as [[z [Z1 Z2]]|[[Z1 Z2]|[z [Z1 Z2]]]].
    + exists q1, (z ++ v). split; [rewrite Z1; apps; reflexivity|]. split; [apply Low; [exact Z1|rewrite <- Z2; exact G]|rewrite Z; exact C].
    + destruct Mid as [r1 [r2 [R1 [R2 [R3 _]]]]]; [rewrite <- Z1, <- Z2; exact G|]. exists r1, r2. split; [exact R1|]. split; [exact R2|].
      rewrite Z, C, R3, Z1, odd_len_app. cbn. destruct (odd_len u); reflexivity.
    + exists (u ++ z), q2. split; [rewrite Z2; apps; reflexivity|]. split; [apply High; [exact Z2|rewrite <- Z1; exact G]|].
      rewrite Z, C, Z1, !odd_len_app, !odd_len_cons, negb_involutive. reflexivity.
  - intros i Hi. destruct (Nat.eq_dec i (pt a)) as [->|D].
    + rewrite H1. pose proof (P (pt a) (Up _ Ia)). assert (Ha : In a (u ++ a :: b :: v)) by inl. assert (Hb : In b (u ++ a :: b :: v)) by inl.
      pose proof (P a Ha). pose proof (P b Hb). lia.
    + rewrite (H2 i Hi D). apply P. apply Up. exact Hi.
  - rewrite Z. exact O.
  - intros i Hi K. destruct (Nat.eq_dec i (pt a)) as [->|D]; [|apply SG; [exact Hi|]; apply S; [apply Up; exact Hi|rewrite <- (H2 i Hi D); exact K]].
    rewrite H1 in K. assert (Ha : In a (u ++ a :: b :: v)) by inl. assert (Hb : In b (u ++ a :: b :: v)) by inl.
    destruct Qq as [N _].
    destruct (Z_lt_dec 0 (hs (pt a))) as [K1|K1]; [apply SG; [exact Hi|]; apply S; [apply Up; exact Hi|exact K1]|].
    destruct (Z_lt_dec 0 (hs a)) as [K2|K2].
    + destruct (S a Ha K2) as [r1 [r2 [Er Gr]]].
      destruct (nodup_once a u (b :: v) r1 r2 N Er) as [E1 E2]. subst r1 r2. destruct (odd_len u) eqn:Ou.
      * apply Outer; [reflexivity|]. apply (Low u []); [rewrite app_nil_r; reflexivity|exact Gr].
      * destruct (Mid Gr) as [x1 [x2 [_ [_ [_ M]]]]]. apply M. reflexivity.
    + assert (K3 : 0 < hs b) by (pose proof (P a Ha); pose proof (P (pt a) (Up _ Ia)); lia).
      destruct (S b Hb K3) as [r1 [r2 [Er Gr]]].
      replace (u ++ a :: b :: v) with ((u ++ [a]) ++ b :: v) in Er by (apps; reflexivity).
      destruct (nodup_once b (u ++ [a]) v r1 r2) as [E1 E2]; [|exact Er|]; [revert N; apps; tauto|]. subst r1 r2.
      rewrite odd_len_app in Gr. cbn in Gr. destruct (odd_len u) eqn:Ou; cbn in Gr.
      * apply Outer; [reflexivity|]. replace u with (u ++ []) by (rewrite app_nil_r; reflexivity). apply (High [] v); [reflexivity|].
        revert Gr. apps. tauto.
      * destruct (Mid Gr) as [x1 [x2 [_ [_ [_ M]]]]]. apply M. reflexivity.
Qed.

(* the two ends of a chain meet *)
Section Close.
Variables (pt : nat -> nat) (w hs : nat -> Z) (a b : nat) (u v : list nat).
Hypothesis Qq : wfq pt (u ++ a :: b :: v).
Hypothesis Pab : pt a = b.

Lemma close_facts : pt b = a /\ cn a (u ++ v) = 0 /\ cn b (u ++ v) = 0 /\ a <> b /\ NoDup (u ++ v) /\
  forall i, In i (u ++ v) -> i <> a /\ i <> b /\ pt i <> a /\ pt i <> b /\ In (pt i) (u ++ v) /\ pt i <> i /\ pt (pt i) = i.
Proof.
  destruct Qq as [N Q]. assert (Ha : In a (u ++ a :: b :: v)) by inl.
  destruct (Q a Ha) as [_ [Da Ea]]. rewrite Pab in Da, Ea.
  assert (C : forall i, cn i (u ++ v) + b2z (i =? a)%nat + b2z (i =? b)%nat <= 1).
  { intros i. pose proof (nodup_count _ N i) as C. rewrite cn_app in C |- *. cbn [cn] in C. lia. }
  pose proof (C a) as C1. pose proof (C b) as C2. rewrite Nat.eqb_refl in C1, C2. cbn [b2z] in C1, C2.
  pose proof (cn_nonneg a (u ++ v)). pose proof (cn_nonneg b (u ++ v)).
  split; [exact Ea|]. split; [destruct (a =? b)%nat; cbn [b2z] in C1; lia|]. split; [destruct (b =? a)%nat; cbn [b2z] in C2; lia|].
  split; [congruence|]. split; [apply (nodup_del u [a; b] v); exact N|]. intros i Hi.
  assert (Na : i <> a /\ i <> b).
  { pose proof (cn_in i _ Hi) as Ci. pose proof (C i) as Ci2. split; intros ->; rewrite Nat.eqb_refl in Ci2; cbn [b2z] in Ci2.
    - destruct (a =? b)%nat; cbn [b2z] in Ci2; lia.
    - destruct (b =? a)%nat; cbn [b2z] in Ci2; lia. }
  destruct Na as [A1 A2]. destruct (Q i) as [B1 [B2 B3]]; [revert Hi; rewrite !in_app_iff; cbn [In]; tauto|].
  assert (D1 : pt i <> a) by (intros K; apply A2; rewrite <- B3, K; exact Pab).
  assert (D2 : pt i <> b) by (intros K; apply A1; rewrite <- B3, K; exact Ea).
  repeat split; try assumption. revert B1. rewrite !in_app_iff. cbn [In]. intuition congruence.
Qed.
Lemma close_wfq : wfq pt (u ++ v).
Proof. destruct close_facts as [_ [_ [_ [_ [N F]]]]]. split; [exact N|]. intros i Hi. destruct (F i Hi) as [_ [_ [_ [_ [A [B C]]]]]]. tauto. Qed.
Lemma close_bal : bal pt (u ++ a :: b :: v) -> bal pt (u ++ v).
Proof.
  intros B. destruct close_facts as [E _]. destruct Qq as [N _]. subst b. apply (bal_remove2 pt u a v); assumption.
Qed.
(* gaps away from the two ends, and between them *)
Lemma close_gap_gen q1 q2 r1 r2 : q1 ++ q2 = u ++ a :: b :: v -> u ++ v = r1 ++ r2 ->
  (forall i, i <> a -> i <> b -> cn i r1 = cn i q1) -> gap pt w q1 q2 -> gap pt w r1 r2.
Proof.
  intros E E' D G i Hi. rewrite <- E' in Hi. unfold gap in G. rewrite E in G. destruct close_facts as [_ [_ [_ [_ [_ F]]]]].
  destruct (F i Hi) as [A1 [A2 [A3 [A4 _]]]]. rewrite !D by assumption. apply G. revert Hi. rewrite !in_app_iff. cbn [In]. tauto.
Qed.
Lemma close_low u1 u2 : u = u1 ++ u2 -> gap pt w u1 (u2 ++ a :: b :: v) -> gap pt w u1 (u2 ++ v) /\ w a = 0.
Proof.
  intros E G. split.
  - apply (close_gap_gen u1 (u2 ++ a :: b :: v)); [rewrite E; apps; reflexivity|rewrite E; apps; reflexivity|reflexivity|exact G].
  - destruct close_facts as [_ [Ca [Cb _]]]. rewrite E, <- app_assoc, cn_app in Ca, Cb.
    pose proof (cn_nonneg a u1). pose proof (cn_nonneg a (u2 ++ v)). pose proof (cn_nonneg b u1). pose proof (cn_nonneg b (u2 ++ v)).
    rewrite (G a) by inl. rewrite Pab. lia.
Qed.
Lemma close_high v1 v2 : v = v1 ++ v2 -> gap pt w (u ++ a :: b :: v1) v2 -> gap pt w (u ++ v1) v2 /\ w a = 0.
Proof.
  intros E G. split.
  - apply (close_gap_gen (u ++ a :: b :: v1) v2); [rewrite E; apps; reflexivity|rewrite E; apps; reflexivity| |exact G].
    intros i A B. rewrite !cn_app. cbn [cn]. apply Nat.eqb_neq in A, B. rewrite A, B. reflexivity.
  - destruct close_facts as [_ [Ca [Cb [D _]]]]. rewrite E, app_assoc, cn_app in Ca, Cb.
    pose proof (cn_nonneg a (u ++ v1)) as P1. pose proof (cn_nonneg a v2). pose proof (cn_nonneg b (u ++ v1)) as P2. pose proof (cn_nonneg b v2).
    rewrite (G a) by inl. rewrite Pab. rewrite cn_app in Ca, Cb, P1, P2. rewrite !cn_app. cbn [cn]. rewrite !Nat.eqb_refl.
    replace (a =? b)%nat with false by (symmetry; apply Nat.eqb_neq; exact D).
    replace (b =? a)%nat with false by (symmetry; apply Nat.eqb_neq; congruence). cbn [b2z]. lia.
Qed.
Lemma close_mid : gap pt w (u ++ [a]) (b :: v) -> gap pt w u v /\ w a = 1.
Proof.
  intros G. split.
  - apply (close_gap_gen (u ++ [a]) (b :: v)); [apps; reflexivity|reflexivity| |exact G].
    intros i A B. rewrite !cn_app. cbn [cn]. apply Nat.eqb_neq in A. rewrite A. cbn [b2z]. lia.
  - destruct close_facts as [_ [Ca [Cb [D _]]]]. rewrite cn_app in Ca, Cb.
    pose proof (cn_nonneg a u) as P1. pose proof (cn_nonneg a v). pose proof (cn_nonneg b u) as P2. pose proof (cn_nonneg b v).
    rewrite (G a) by inl. rewrite Pab. rewrite !cn_app. cbn [cn]. rewrite !Nat.eqb_refl.
    replace (b =? a)%nat with false by (symmetry; apply Nat.eqb_neq; congruence). cbn [b2z]. lia.
Qed.
Lemma close_sgap i : In i (u ++ v) -> sgap pt w (u ++ a :: b :: v) i -> sgap pt w (u ++ v) i /\ w a = 0.
Proof.
  intros Hi [r1 [r2 [Er Gr]]]. destruct close_facts as [_ [_ [_ [_ [_ F]]]]]. destruct (F i Hi) as [A1 [A2 _]].
  destruct (split_end r1 r2 u v a b i (eq_sym Er)) as [[z [Z1 Z2]]|[[Z1 _]|[[Z1 _]|[z [Z1 Z2]]]]]; [|congruence|congruence|].
  - assert (K : (if odd_len r1 then gap pt w r1 (i :: z ++ v) else gap pt w (r1 ++ [i]) (z ++ v)) /\ w a = 0).
    { destruct (odd_len r1).
      - change (i :: z ++ v) with ((i :: z) ++ v). apply close_low; [exact Z1|]. cbn [app]. rewrite <- Z2. exact Gr.
      - apply close_low; [rewrite Z1; apps; reflexivity|]. rewrite <- Z2. exact Gr. }
    destruct K as [K1 K2]. split; [|exact K2]. exists r1, (z ++ v). split; [rewrite Z1; apps; reflexivity|exact K1].
  - assert (K : (if odd_len r1 then gap pt w (u ++ z) (i :: r2) else gap pt w ((u ++ z) ++ [i]) r2) /\ w a = 0).
    { destruct (odd_len r1).
      - apply close_high; [exact Z2|]. rewrite <- Z1. exact Gr.
      - replace ((u ++ z) ++ [i]) with (u ++ (z ++ [i])) by (apps; reflexivity). apply close_high; [rewrite Z2; apps; reflexivity|].
        replace (u ++ a :: b :: z ++ [i]) with (r1 ++ [i]) by (rewrite Z1; apps; reflexivity). exact Gr. }
    destruct K as [K1 K2]. split; [|exact K2]. exists (u ++ z), r2. split; [rewrite Z2; apps; reflexivity|].
    replace (odd_len (u ++ z)) with (odd_len r1); [exact K1|].
    rewrite Z1, !odd_len_app, !odd_len_cons, negb_involutive. reflexivity.
Qed.
(* the holes of the two ends *)
Lemma close_own i : i = a \/ i = b -> sgap pt w (u ++ a :: b :: v) i ->
  if odd_len u then gap pt w u v /\ w a = 0 else w a = 1.
Proof.
  intros Hi [r1 [r2 [Er Gr]]]. destruct Qq as [N _].
  assert (K : if odd_len u then gap pt w u v /\ w a = 0 else gap pt w (u ++ [a]) (b :: v)).
  { destruct Hi as [->| ->].
    - destruct (nodup_once a u (b :: v) r1 r2 N Er) as [E1 E2]. subst r1 r2. destruct (odd_len u); [|exact Gr].
      apply (close_low u []); [rewrite app_nil_r; reflexivity|exact Gr].
    - replace (u ++ a :: b :: v) with ((u ++ [a]) ++ b :: v) in Er by (apps; reflexivity).
      destruct (nodup_once b (u ++ [a]) v r1 r2) as [E1 E2]; [|exact Er|]; [revert N; apps; tauto|]. subst r1 r2.
      rewrite odd_len_app in Gr. cbn in Gr. destruct (odd_len u); cbn in Gr; [|exact Gr].
      replace u with (u ++ []) at 1 by (rewrite app_nil_r; reflexivity). apply close_high; [reflexivity|]. revert Gr. apps. tauto. }
  destruct (odd_len u); [exact K|]. apply close_mid. exact K.
Qed.

Lemma cell_close c : cell pt w hs (u ++ a :: b :: v) c ->
  (w a = 0 \/ w a = 1) /\
  (if odd_len u then
     let hp := w a + hs a + hs b in
     0 <= hp /\ hp + zsum hs (u ++ v) <= 1 /\ (0 < hp -> gap pt w u v) /\ cell pt w hs (u ++ v) (c + hp)
   else
     let val := w a - hs a - hs b in
     0 <= val /\ cell pt w hs (u ++ v) (c - val)).
Proof.
  intros [[q1 [q2 [E [G C]]]] P O S].
  assert (Ha : In a (u ++ a :: b :: v)) by inl. assert (Hb : In b (u ++ a :: b :: v)) by inl.
  assert (Up : forall j, In j (u ++ v) -> In j (u ++ a :: b :: v)) by (intros j; rewrite !in_app_iff; cbn [In]; tauto).
  assert (Zs : zsum hs (u ++ a :: b :: v) = zsum hs (u ++ v) + hs a + hs b) by (rewrite !zsum_app, !zsum_one; lia).
  pose proof (P a Ha) as Pa. pose proof (P b Hb) as Pb.
  assert (Pz : 0 <= zsum hs (u ++ v)) by (apply zsum_ge; intros i Hi; apply P, Up, Hi).
  (* the new gap *)
  assert (K : exists r1 r2, u ++ v = r1 ++ r2 /\ gap pt w r1 r2 /\
    ((w a = 0 /\ odd_len r1 = odd_len q1) \/ (w a = 1 /\ r1 = u /\ r2 = v /\ odd_len q1 = negb (odd_len u)))).
  { destruct (split3 q1 q2 u v a b (eq_sym E)) as [[z [Z1 Z2]]|[[Z1 Z2]|[z [Z1 Z2]]]].
    - destruct (close_low q1 z Z1) as [K1 K2]; [rewrite <- Z2; exact G|]. exists q1, (z ++ v). split; [rewrite Z1; apps; reflexivity|]. tauto.
    - destruct close_mid as [K1 K2]; [rewrite <- Z1, <- Z2; exact G|]. exists u, v. split; [reflexivity|]. split; [exact K1|]. right.
      split; [exact K2|]. split; [reflexivity|]. split; [reflexivity|]. rewrite Z1, odd_len_app. cbn. destruct (odd_len u); reflexivity.
    - destruct (close_high z q2 Z2) as [K1 K2]; [rewrite <- Z1; exact G|]. exists (u ++ z), q2. split; [rewrite Z2; apps; reflexivity|]. split; [exact K1|].
      left. split; [exact K2|]. rewrite Z1, !odd_len_app, !odd_len_cons, negb_involutive. reflexivity. }
  destruct K as [r1 [r2 [R1 [R2 R3]]]]. split; [tauto|].
  assert (Rest : forall d, d = b2z (odd_len r1) - zsum hs (u ++ v) -> cell pt w hs (u ++ v) d).
  { intros d Ed. split.
    - exists r1, r2. tauto.
    - intros i Hi. apply P, Up, Hi.
    - lia.
    - intros i Hi L. apply close_sgap; [exact Hi|]. apply S; [apply Up; exact Hi|exact L]. }
  destruct (odd_len u) eqn:Ou; cbv zeta.
  - (* a hole *)
    assert (Own : forall i, i = a \/ i = b -> 0 < hs i -> gap pt w u v /\ w a = 0).
    { intros i Hi L. assert (Q : In i (u ++ a :: b :: v)) by (destruct Hi as [->| ->]; assumption).
      pose proof (close_own i Hi (S i Q L)) as K. rewrite Ou in K. exact K. }
    split; [destruct R3 as [[-> _]|[-> _]]; lia|]. split.
    + destruct R3 as [[Wa _]|[Wa _]]; [rewrite Wa; lia|].
      assert (Q : ~ 0 < zsum hs (u ++ a :: b :: v)).
      { intros L. destruct (zsum_pos hs _ P L) as [i [Hi Li]].
        destruct (Nat.eq_dec i a) as [->|Da]; [destruct (Own a (or_introl eq_refl) Li); lia|].
        destruct (Nat.eq_dec i b) as [->|Db]; [destruct (Own b (or_intror eq_refl) Li); lia|].
        assert (Hi2 : In i (u ++ v)) by (revert Hi; rewrite !in_app_iff; cbn [In]; intuition congruence).
        destruct (close_sgap i Hi2 (S i Hi Li)). lia. }
      lia.
    + split.
      * intros L. destruct R3 as [[Wa _]|[Wa [-> [-> _]]]]; [|exact R2].
        destruct (Z_lt_dec 0 (hs a)) as [L1|L1]; [apply (Own a); tauto|]. destruct (Z_lt_dec 0 (hs b)) as [L2|L2]; [apply (Own b); tauto|]. lia.
      * apply Rest. destruct R3 as [[Wa Or]|[Wa [-> [-> Or]]]]; rewrite Wa, C; [rewrite Or; lia|]. rewrite Or, Ou. cbn [negb b2z]. lia.
  - assert (Own : 0 < hs a + hs b -> w a = 1).
    { intros L. assert (Q : exists i, (i = a \/ i = b) /\ In i (u ++ a :: b :: v) /\ 0 < hs i).
      { destruct (Z_lt_dec 0 (hs a)) as [L1|L1]; [exists a; tauto|]. exists b. split; [tauto|]. split; [exact Hb|lia]. }
      destruct Q as [i [Hi [Qi Li]]]. pose proof (close_own i Hi (S i Qi Li)) as K. rewrite Ou in K. exact K. }
    split.
    + destruct (Z_lt_dec 0 (hs a + hs b)) as [L|L]; [specialize (Own L); lia|]. destruct R3 as [[-> _]|[-> _]]; lia.
    + apply Rest. destruct R3 as [[Wa Or]|[Wa [-> [-> Or]]]]; rewrite Wa, C; [rewrite Or; lia|]. rewrite Or, Ou. cbn [negb b2z]. lia.
Qed.
End Close.

(* a closed hole is given to the end [i] *)
Lemma cell_attach pt w hs hs' q c hp i : NoDup q -> In i q -> cell pt w hs q c -> 0 <= hp -> hp + zsum hs q <= 1 ->
  (0 < hp -> sgap pt w q i) -> hs' i = hs i + hp -> (forall j, In j q -> j <> i -> hs' j = hs j) ->
  cell pt w hs' q (c - hp).
Proof.
  intros N Hi [[q1 [q2 [E [G C]]]] P O S] H0 H1 Hs Hi' Ho.
  assert (Z : zsum hs' q = zsum hs q + hp) by (apply (zsum_upd hs hs' i); assumption).
  split.
  - exists q1, q2. split; [exact E|]. split; [exact G|]. lia.
  - intros j Hj. destruct (Nat.eq_dec j i) as [->|D]; [rewrite Hi'; specialize (P i Hi); lia|]. rewrite (Ho j Hj D). apply P. exact Hj.
  - lia.
  - intros j Hj L. destruct (Nat.eq_dec j i) as [->|D].
    + destruct (Z_lt_dec 0 hp) as [L1|L1]; [apply Hs; exact L1|]. apply S; [exact Hi|lia].
    + apply S; [exact Hj|]. rewrite <- (Ho j Hj D). exact L.
Qed.

(* a new pair of ends appears *)
Section Insert.
Variables (pt pt' : nat -> nat) (a b : nat) (u v : list nat).
Hypothesis Qq : wfq pt (u ++ v).
Hypothesis Na : ~ In a (u ++ v).
Hypothesis Nb : ~ In b (u ++ v).
Hypothesis Dab : a <> b.
Hypothesis P1 : pt' a = b.
Hypothesis P2 : pt' b = a.
Hypothesis P3 : forall i, In i (u ++ v) -> pt' i = pt i.

Lemma insert_wfq : wfq pt' (u ++ a :: b :: v).
Proof.
  destruct Qq as [N Q]. split.
  - apply cn_le_nodup. intros i. pose proof (nodup_count _ N i) as C. rewrite cn_app in C |- *. cbn [cn].
    destruct (Nat.eqb_spec i a) as [->|D1].
    + apply cn_out in Na. rewrite cn_app in Na. apply Nat.eqb_neq in Dab. rewrite Dab. cbn [b2z]. lia.
    + destruct (Nat.eqb_spec i b) as [->|D2]; cbn [b2z]; [apply cn_out in Nb; rewrite cn_app in Nb|]; lia.
  - intros i Hi. assert (K : i = a \/ i = b \/ In i (u ++ v)).
    { revert Hi. rewrite !in_app_iff. cbn [In]. intuition congruence. }
    destruct K as [->|[->|K]].
    + rewrite P1, P2. split; [inl|]. split; [congruence|reflexivity].
    + rewrite P2, P1. split; [inl|]. split; [congruence|reflexivity].
    + destruct (Q i K) as [A [B C]]. rewrite (P3 i K). split; [revert A; rewrite !in_app_iff; cbn [In]; tauto|]. split; [exact B|].
      rewrite (P3 _ A). exact C.
Qed.
Lemma insert_bal : bal pt (u ++ v) -> bal pt' (u ++ a :: b :: v).
Proof.
  intros B. change (a :: b :: v) with ([a; b] ++ v). apply bal_insert.
  - apply (bal_ext pt pt' _ B P3).
  - change [a; b] with (a :: [] ++ [b]). rewrite <- P1. apply bal_cons; [rewrite P1; exact P2|constructor|constructor].
Qed.
Variables (w w' : nat -> Z).
Hypothesis W1 : w' a = 0.
Hypothesis W2 : w' b = 0.
Hypothesis W3 : forall i, In i (u ++ v) -> w' i = w i.
Lemma insert_gap_gen q1 q2 r1 r2 : u ++ v = q1 ++ q2 -> u ++ a :: b :: v = r1 ++ r2 -> gap pt w q1 q2 ->
  cn a r1 = cn b r1 -> (forall i, i <> a -> i <> b -> cn i r1 = cn i q1) -> gap pt' w' r1 r2.
Proof.
  intros E E' G C D i Hi. rewrite <- E' in Hi. unfold gap in G. rewrite <- E in G.
  assert (K : i = a \/ i = b \/ In i (u ++ v)).
  { revert Hi. rewrite !in_app_iff. cbn [In]. intuition congruence. }
  destruct K as [->|[->|K]]; [rewrite W1, P1; lia|rewrite W2, P2; lia|].
  destruct Qq as [_ Q]. destruct (Q i K) as [A _]. rewrite (W3 i K), (P3 i K), (G i K).
  rewrite !D; [lia| | | |]; intros X; first [solve [rewrite X in K; tauto] | solve [rewrite X in A; tauto]].
Qed.
Lemma insert_low u1 u2 : u = u1 ++ u2 -> gap pt w u1 (u2 ++ v) -> gap pt' w' u1 (u2 ++ a :: b :: v).
Proof.
  intros E G. apply (insert_gap_gen u1 (u2 ++ v)); [rewrite E; apps; reflexivity|rewrite E; apps; reflexivity|exact G| |reflexivity].
  rewrite !cn_out; [reflexivity| |]; intros K; [apply Nb|apply Na]; rewrite E, !in_app_iff; tauto.
Qed.
Lemma insert_high v1 v2 : v = v1 ++ v2 -> gap pt w (u ++ v1) v2 -> gap pt' w' (u ++ a :: b :: v1) v2.
Proof.
  intros E G. apply (insert_gap_gen (u ++ v1) v2); [rewrite E; apps; reflexivity|rewrite E; apps; reflexivity|exact G| |].
  - rewrite !cn_app. cbn [cn]. rewrite !Nat.eqb_refl. pose proof (cn_out _ _ Na) as Ca. pose proof (cn_out _ _ Nb) as Cb.
    rewrite E, !cn_app in Ca, Cb. pose proof (cn_nonneg a u). pose proof (cn_nonneg a v1). pose proof (cn_nonneg a v2).
    pose proof (cn_nonneg b u). pose proof (cn_nonneg b v1). pose proof (cn_nonneg b v2).
    replace (a =? b)%nat with false by (symmetry; apply Nat.eqb_neq; exact Dab).
    replace (b =? a)%nat with false by (symmetry; apply Nat.eqb_neq; congruence). cbn [b2z]. lia.
  - intros i A B. rewrite !cn_app. cbn [cn]. apply Nat.eqb_neq in A, B. rewrite A, B. reflexivity.
Qed.
Lemma cell_insert hs hs' c : hs' a = 0 -> hs' b = 0 -> (forall i, In i (u ++ v) -> hs' i = hs i) ->
  cell pt w hs (u ++ v) c -> cell pt' w' hs' (u ++ a :: b :: v) c.
Proof.
  intros H1 H2 H3 [[q1 [q2 [E [G C]]]] P O S].
  assert (Z : zsum hs' (u ++ a :: b :: v) = zsum hs (u ++ v)).
  { rewrite <- (zsum_ext_in hs' hs (u ++ v) H3), !zsum_app, !zsum_one, H1, H2. lia. }
  assert (K : forall i, In i (u ++ a :: b :: v) -> i = a \/ i = b \/ In i (u ++ v)).
  { intros i. rewrite !in_app_iff. cbn [In]. intuition congruence. }
  split.
  - assert (D : (exists z, u = q1 ++ z /\ q2 = z ++ v) \/ (exists z, q1 = u ++ z /\ v = z ++ q2)).
    { destruct v as [|v0 v'].
      - rewrite app_nil_r in E. left. exists q2. rewrite app_nil_r. tauto.
      - destruct (app_split q1 q2 u v' v0 (eq_sym E)) as [[z [Z1 Z2]]|[z [Z1 Z2]]].
        + left. exists z. tauto.
        + right. exists (v0 :: z). cbn [app]. split; [exact Z1|]. rewrite Z2. reflexivity. }
    destruct D as [[z [Z1 Z2]]|[z [Z1 Z2]]].
    + exists q1, (z ++ a :: b :: v). split; [rewrite Z1; apps; reflexivity|]. split; [|rewrite Z; exact C].
      apply insert_low; [exact Z1|]. rewrite <- Z2. exact G.
    + exists (u ++ a :: b :: z), q2. split; [rewrite Z2; apps; reflexivity|]. split; [apply insert_high; [exact Z2|rewrite <- Z1; exact G]|].
      rewrite Z, C, Z1, !odd_len_app, !odd_len_cons, negb_involutive. reflexivity.
  - intros i Hi. destruct (K i Hi) as [->|[->|Hi2]]; [lia|lia|]. rewrite (H3 i Hi2). apply P. exact Hi2.
  - rewrite Z. exact O.
  - intros i Hi L. destruct (K i Hi) as [->|[->|Hi2]]; [lia|lia|]. rewrite (H3 i Hi2) in L. destruct (S i Hi2 L) as [r1 [r2 [Er Gr]]].
    assert (D : (exists z, u = r1 ++ i :: z /\ r2 = z ++ v) \/ (exists z, r1 = u ++ z /\ v = z ++ i :: r2)).
    { destruct (app_split u v r1 r2 i Er) as [[z [Z1 Z2]]|[z [Z1 Z2]]].
      - right. exists z. tauto.
      - left. exists z. tauto. }
    destruct D as [[z [Z1 Z2]]|[z [Z1 Z2]]].
    + exists r1, (z ++ a :: b :: v). split; [rewrite Z1; apps; reflexivity|]. destruct (odd_len r1).
      * change (i :: z ++ a :: b :: v) with ((i :: z) ++ a :: b :: v). apply insert_low; [exact Z1|]. cbn [app]. rewrite <- Z2. exact Gr.
      * apply insert_low; [rewrite Z1; apps; reflexivity|]. rewrite <- Z2. exact Gr.
    + exists (u ++ a :: b :: z), r2. split; [rewrite Z2; apps; reflexivity|].
      replace (odd_len (u ++ a :: b :: z)) with (odd_len r1).
      2:{ rewrite Z1, !odd_len_app, !odd_len_cons, negb_involutive. reflexivity. }
      destruct (odd_len r1).
      * apply insert_high; [exact Z2|]. rewrite <- Z1. exact Gr.
      * replace ((u ++ a :: b :: z) ++ [i]) with (u ++ a :: b :: (z ++ [i])) by (apps; reflexivity). apply insert_high; [rewrite Z2; apps; reflexivity|].
        replace (u ++ z ++ [i]) with (r1 ++ [i]) by (rewrite Z1; apps; reflexivity). exact Gr.
Qed.
(* the solid gap of the upper new end, if there is solid below the pair *)
Lemma insert_sgap : odd_len u = true -> gap pt w u v -> sgap pt' w' (u ++ a :: b :: v) b.
Proof.
  intros O G. exists (u ++ [a]), v. split; [apps; reflexivity|]. rewrite odd_len_app, O. cbn.
  replace ((u ++ [a]) ++ [b]) with (u ++ a :: b :: []) by (apps; reflexivity). apply insert_high; [reflexivity|]. rewrite app_nil_r. exact G.
Qed.
End Insert.
