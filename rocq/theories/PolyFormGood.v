(* Chains of coordinates whose edges have the region on one side. *)
From Verif Require Import Base Units Scan90Spec Poly90Spec Poly90Model Poly90Proofs Set90Model PolyFormGaps PolyFormModel PolyFormLemmas.
From Coq Require Import Arith.

Definition BIG : Z := INT_MAX + 1.
(* the edge at the coordinate b from a to c; v: it is vertical; d: the region
   lies to the left of it, otherwise to the right *)
Definition gedge (P : Z -> Z -> bool) (d v : bool) (a b c : Z) : Prop :=
  if v then (forall y, a <= y < c -> P (b - 1) y = d /\ P b y = negb d) /\ (forall y, c <= y < a -> P b y = d /\ P (b - 1) y = negb d)
  else (forall x, a <= x < c -> P x b = d /\ P x (b - 1) = negb d) /\ (forall x, c <= x < a -> P x (b - 1) = d /\ P x b = negb d).
(* the corner of two edges at (x,y): the cell between them or the cell opposite
   belongs to the region *)
Definition qd (P : Z -> Z -> bool) (x y : Z) (right up : bool) : Prop :=
  P (if right then x else x - 1) (if up then y else y - 1) = true \/ P (if right then x - 1 else x) (if up then y - 1 else y) = true.
(* the corner of the edge at b, which comes from a, and the edge at c, which goes to e *)
Definition gcorner (P : Z -> Z -> bool) (v : bool) (a b c e : Z) : Prop :=
  if v then qd P b c (b <? e) (c <? a) else qd P c b (c <? a) (b <? e).

Fixpoint GE (P : Z -> Z -> bool) (d v : bool) (l : list Z) : Prop :=
  match l with
  | a :: l' => match l' with b :: c :: _ => gedge P d (negb v) a b c | _ => True end /\ GE P d (negb v) l'
  | [] => True
  end.
Fixpoint GC (P : Z -> Z -> bool) (v : bool) (l : list Z) : Prop :=
  match l with
  | a :: l' => match l' with b :: c :: e :: _ => gcorner P (negb v) a b c e | _ => True end /\ GC P (negb v) l'
  | [] => True
  end.
(* both ends of a chain go on to larger coordinates *)
Definition gline (P : Z -> Z -> bool) (d v : bool) (l : list Z) : Prop := GE P d v l /\ GC P (negb v) (BIG :: l ++ [BIG]).
Definition gring (P : Z -> Z -> bool) (d v : bool) (l : list Z) : Prop :=
  match l with a :: b :: c :: _ => GE P d v (l ++ [a; b]) /\ GC P v (l ++ [a; b; c]) | _ => False end.

Section Good.
Variable P : Z -> Z -> bool.

Lemma gedge_rev d v a b c : gedge P d v a b c -> gedge P (negb d) v c b a.
Proof. unfold gedge. destruct v; rewrite negb_involutive; intros [H1 H2]; split; intros z Hz; [destruct (H2 z Hz)|destruct (H1 z Hz)|destruct (H2 z Hz)|destruct (H1 z Hz)]; tauto. Qed.
Lemma gcorner_rev v a b c e : gcorner P v a b c e -> gcorner P (negb v) e c b a.
Proof. unfold gcorner. destruct v; cbn [negb]; tauto. Qed.
Lemma gcorner_from v a a' b c e : c < a -> c < a' -> gcorner P v a b c e -> gcorner P v a' b c e.
Proof. unfold gcorner. intros L L'. replace (c <? a') with (c <? a) by lia. tauto. Qed.
Lemma gcorner_to v a b c e e' : b < e -> b < e' -> gcorner P v a b c e -> gcorner P v a b c e'.
Proof. unfold gcorner. intros L L'. replace (b <? e') with (b <? e) by lia. tauto. Qed.

Lemma GE_cons d v a b c l : GE P d v (a :: b :: c :: l) <-> gedge P d (negb v) a b c /\ GE P d (negb v) (b :: c :: l).
Proof. reflexivity. Qed.
Lemma GC_cons v a b c e l : GC P v (a :: b :: c :: e :: l) <-> gcorner P (negb v) a b c e /\ GC P (negb v) (b :: c :: e :: l).
Proof. reflexivity. Qed.
Lemma GE_2 d v a b : GE P d v [a; b].
Proof. cbn. tauto. Qed.
Lemma GC_3 v a b c : GC P v [a; b; c].
Proof. cbn. tauto. Qed.
Lemma GE_split d u : forall v a b w, GE P d v (u ++ a :: b :: w) <-> GE P d v (u ++ [a; b]) /\ GE P d (vat v u) (a :: b :: w).
Proof.
  induction u as [|x u IH]; intros v a b w.
  - cbn [app]. rewrite vat_nil. pose proof (GE_2 d v a b). tauto.
  - rewrite vat_cons. specialize (IH (negb v) a b w). destruct u as [|y [|z u]]; cbn [app] in *; rewrite !(GE_cons d v x); tauto.
Qed.
Lemma GC_split u : forall v a b c w, GC P v (u ++ a :: b :: c :: w) <-> GC P v (u ++ [a; b; c]) /\ GC P (vat v u) (a :: b :: c :: w).
Proof.
  induction u as [|x u IH]; intros v a b c w.
  - cbn [app]. rewrite vat_nil. pose proof (GC_3 v a b c). tauto.
  - rewrite vat_cons. specialize (IH (negb v) a b c w). destruct u as [|y [|z [|t u]]]; cbn [app] in *; try rewrite !(GC_cons v x); tauto.
Qed.
Lemma GE_tl d v a l : GE P d v (a :: l) -> GE P d (negb v) l.
Proof. intros [_ H]. exact H. Qed.
Lemma GC_tl v a l : GC P v (a :: l) -> GC P (negb v) l.
Proof. intros [_ H]. exact H. Qed.
Lemma GE_pre d u w : forall v, GE P d v (u ++ w) -> GE P d v u.
Proof.
  induction u as [|a u IH]; intros v H; [exact I|]. cbn [app] in H. split; [|apply IH; exact (GE_tl _ _ _ _ H)].
  destruct u as [|b [|c u]]; [exact I|exact I|]. apply H.
Qed.
Lemma GC_pre u w : forall v, GC P v (u ++ w) -> GC P v u.
Proof.
  induction u as [|a u IH]; intros v H; [exact I|]. cbn [app] in H. split; [|apply IH; exact (GC_tl _ _ _ H)].
  destruct u as [|b [|c [|e u]]]; [exact I|exact I|exact I|]. apply H.
Qed.
Lemma GE_rev d l : forall v, GE P d v l -> GE P (negb d) (negb (vat v l)) (rev l).
Proof.
  induction l as [|a l IH]; intros v H; [exact I|]. specialize (IH _ (GE_tl _ _ _ _ H)). rewrite vat_cons. destruct l as [|b [|c l]].
  - cbn. tauto.
  - cbn. tauto.
  - cbn [rev] in IH |- *. rewrite <- !app_assoc in *. cbn [app] in *. apply GE_split. split; [exact IH|].
    rewrite GE_cons in H. destruct H as [H _]. split; [|apply GE_2]. rewrite !vat_cons, !vat_negb, vat_rev, !negb_involutive. rewrite vat_vat. apply gedge_rev. exact H.
Qed.
Lemma GC_rev l : forall v, GC P v l -> GC P (negb (vat v l)) (rev l).
Proof.
  induction l as [|a l IH]; intros v H; [exact I|]. specialize (IH _ (GC_tl _ _ _ H)). rewrite vat_cons. destruct l as [|b [|c [|e l]]].
  - cbn. tauto.
  - cbn. tauto.
  - cbn. tauto.
  - cbn [rev] in IH |- *. rewrite <- !app_assoc in *. cbn [app] in *. apply GC_split. split; [exact IH|].
    rewrite GC_cons in H. destruct H as [H _]. split; [|apply GC_3]. rewrite !vat_cons, !vat_negb, vat_rev, !negb_involutive.
    rewrite vat_vat. apply gcorner_rev in H. rewrite negb_involutive in H. exact H.
Qed.
Lemma vat_app1 v l a : vat v (l ++ [a]) = negb (vat v l).
Proof. rewrite vat_app, vat_cons, vat_nil. reflexivity. Qed.
Lemma gline_rev d v l : gline P d v l -> gline P (negb d) (negb (vat v l)) (rev l).
Proof.
  intros [H1 H2]. split; [apply GE_rev; exact H1|]. apply GC_rev in H2. cbn [rev] in H2. rewrite rev_app_distr in H2. cbn [rev app] in H2.
  rewrite vat_cons, vat_app1, !negb_involutive in *. exact H2.
Qed.
Lemma gline_push d v a b c l : gline P d v (a :: b :: l) -> b < c -> b < BIG -> gedge P d v c a b -> gcorner P (negb v) BIG c a b -> gline P d (negb v) (c :: a :: b :: l).
Proof.
  intros [H1 H2] L LB Ed Co. split; [rewrite GE_cons, negb_involutive; split; assumption|]. rewrite negb_involutive. cbn [app] in *.
  assert (E : exists e m, l ++ [BIG] = e :: m) by (destruct l as [|e l]; [exists BIG, []|exists e, (l ++ [BIG])]; reflexivity). destruct E as [e [m E]]. rewrite E in *.
  rewrite !GC_cons in *. rewrite negb_involutive in *. split; [exact Co|]. split; [apply (gcorner_from v BIG c); [exact LB|exact L|apply H2]|apply H2].
Qed.
Lemma gline_join da va a1 a2 la b1 b2 lb : gline P da va (a1 :: a2 :: la) -> gline P (negb da) (negb va) (b1 :: b2 :: lb) ->
  a2 < b1 -> b2 < a1 -> a2 < BIG -> b2 < BIG -> gedge P (negb da) va a2 a1 b1 -> gedge P (negb da) (negb va) a1 b1 b2 -> gcorner P va a2 a1 b1 b2 ->
  gline P (negb da) (negb (vat va (a1 :: a2 :: la))) (rev (a1 :: a2 :: la) ++ b1 :: b2 :: lb).
Proof.
  intros HA HB L1 L2 LA LB E1 E2 Co. apply gline_rev in HA. destruct HA as [A1 A2], HB as [B1 B2].
  set (v0 := negb (vat va (a1 :: a2 :: la))) in *. assert (Ev : vat v0 (rev la) = negb va).
  { unfold v0. rewrite !vat_cons, negb_involutive, vat_negb, vat_rev, vat_vat. reflexivity. }
  assert (El : rev (a1 :: a2 :: la) = rev la ++ [a2; a1]) by (cbn [rev]; rewrite <- app_assoc; reflexivity).
  rewrite El in *. rewrite <- app_assoc in *. cbn [app] in *. split.
  - apply GE_split. split; [exact A1|]. rewrite !GE_cons, Ev, negb_involutive. split; [exact E1|]. split; [exact E2|exact B1].
  - replace (BIG :: (rev la ++ a2 :: a1 :: b1 :: b2 :: lb) ++ [BIG]) with ((BIG :: rev la) ++ a2 :: a1 :: b1 :: b2 :: lb ++ [BIG]) by (cbn [app]; rewrite <- app_assoc; reflexivity).
    apply GC_split. assert (Ev' : vat (negb v0) (BIG :: rev la) = negb va) by (rewrite vat_cons, negb_involutive; exact Ev). split.
    + clear - A2 L1 LA Ev'. change (GC P (negb v0) ((BIG :: rev la) ++ [a2; a1; BIG])) in A2.
      destruct (exists_last (l := BIG :: rev la)) as [m [z Ez]]; [discriminate|]. rewrite Ez in *. rewrite <- app_assoc in *. cbn [app] in *.
      apply GC_split. apply GC_split in A2. destruct A2 as [K1 K2]. split; [exact K1|]. rewrite GC_cons in *. split; [|apply GC_3]. apply (gcorner_to _ _ _ _ BIG b1); [exact LA|exact L1|apply K2].
    + rewrite GC_cons, Ev', negb_involutive. split; [exact Co|]. assert (E : exists e m, lb ++ [BIG] = e :: m) by (destruct lb as [|e lb]; [exists BIG, []|exists e, (lb ++ [BIG])]; reflexivity).
      destruct E as [e [m E]]. rewrite E in *. rewrite negb_involutive in B2. rewrite GC_cons in *. split; [apply (gcorner_from _ BIG a1); [exact LB|exact L2|apply B2]|apply B2].
Qed.
Lemma gline_ring d X y0 xp H l l' : gline P d true l -> l = X :: y0 :: l' -> (exists m, l = m ++ [xp; H]) -> Nat.Even (length l) -> (4 <= length l)%nat ->
  y0 < H -> xp < X -> y0 < BIG -> xp < BIG -> gedge P d false xp H X -> gedge P d true H X y0 -> gcorner P false xp H X y0 -> gring P d true l.
Proof.
  intros [G1 G2] El [m Em] Ev L4 L1 L2 B1 B2 E1 E2 Co. destruct l' as [|c l']; [rewrite El in L4; cbn [length] in L4; lia|].
  assert (Vm : vat true m = true).
  { unfold vat. rewrite Em, app_length, Nat.add_comm in Ev. cbn [length plus] in Ev. apply Nat.even_spec in Ev. cbn [Nat.even] in Ev. unfold Nat.odd. rewrite Ev. reflexivity. }
  assert (K : GE P d true (l ++ [X; y0]) /\ GC P true (l ++ [X; y0; c])); [|revert K; unfold gring; rewrite El; tauto]. split.
  - rewrite Em. rewrite <- app_assoc. cbn [app]. apply GE_split. rewrite <- Em, Vm. split; [exact G1|]. rewrite !GE_cons. cbn [negb]. split; [exact E1|]. split; [exact E2|]. apply GE_2.
  - cbn [negb] in G2. assert (Gh : gcorner P true BIG X y0 c).
    { rewrite El in G2. cbn [app] in G2. rewrite GC_cons in G2. apply G2. }
    assert (Gt : GC P true (m ++ [xp; H; X])).
    { apply GC_tl in G2. rewrite Em, <- app_assoc in G2. cbn [app negb] in G2. destruct m as [|m0 m] using rev_ind; [apply GC_3|]. rewrite <- app_assoc in *. cbn [app] in *.
      apply GC_split in G2. apply GC_split. destruct G2 as [K1 K2]. split; [exact K1|]. rewrite GC_cons in *. split; [|apply GC_3]. apply (gcorner_to _ _ _ _ BIG X); [exact B2|exact L2|apply K2]. }
    rewrite Em, <- app_assoc. cbn [app]. apply GC_split. split; [exact Gt|]. rewrite Vm, !GC_cons. cbn [negb]. split; [exact Co|]. split; [apply (gcorner_from _ BIG H); [exact B1|exact L1|exact Gh]|apply GC_3].
Qed.
Lemma gring_rotate d v a l : Nat.Even (length (a :: l)) -> (4 <= length (a :: l))%nat -> gring P d v (a :: l) -> gring P d (negb v) (l ++ [a]).
Proof.
  intros Ev L4. destruct l as [|b [|c [|e l]]]; try (cbn [length] in L4; lia). cbn [gring app]. intros [H1 H2].
  assert (Vv : vat v (a :: b :: c :: e :: l) = v).
  { unfold vat. apply Nat.even_spec in Ev. unfold Nat.odd. rewrite Ev. destruct v; reflexivity. }
  rewrite <- !app_assoc. cbn [app]. split.
  - pose proof H1 as K. rewrite GE_cons in K. destruct K as [K _]. apply GE_tl in H1. cbn [app] in H1.
    change (b :: c :: e :: l ++ [a; b; c]) with ((b :: c :: e :: l) ++ a :: b :: [c]). apply GE_split. split; [exact H1|].
    rewrite <- vat_cons with (a := a), Vv. rewrite GE_cons. split; [exact K|apply GE_2].
  - pose proof H2 as K. rewrite GC_cons in K. destruct K as [K _]. apply GC_tl in H2. cbn [app] in H2.
    change (b :: c :: e :: l ++ [a; b; c; e]) with ((b :: c :: e :: l) ++ a :: b :: c :: [e]). apply GC_split. split; [exact H2|].
    rewrite <- vat_cons with (a := a), Vv. rewrite GC_cons. split; [exact K|apply GC_3].
Qed.
Lemma gring_rots d u : forall v w, Nat.Even (length (u ++ w)) -> (4 <= length (u ++ w))%nat -> gring P d v (u ++ w) -> gring P d (vat v u) (w ++ u).
Proof.
  induction u as [|a u IH]; intros v w E L G; [rewrite app_nil_r; rewrite vat_nil; exact G|]. cbn [app] in *. apply gring_rotate in G; [|exact E|exact L].
  rewrite vat_cons. replace (w ++ a :: u) with ((w ++ [a]) ++ u) by (rewrite <- app_assoc; reflexivity). rewrite <- app_assoc in G.
  apply IH; [| |exact G]; rewrite !app_length in *; cbn [length] in *; rewrite app_length in *; replace (length u + (length w + 1))%nat with (S (length u + length w)) by lia; [exact E|lia].
Qed.
Lemma gring_rev d v l : Nat.Even (length l) -> (4 <= length l)%nat -> gring P d v l -> gring P (negb d) (negb v) (rev l).
Proof.
  intros E L G. assert (V : vat v l = v) by (unfold vat; apply Nat.even_spec in E; unfold Nat.odd; rewrite E; destruct v; reflexivity).
  assert (Sp : exists m r c e, l = m ++ [r; c; e] /\ (1 <= length m)%nat).
  { rewrite <- (rev_involutive l). rewrite <- (rev_length l) in L. destruct (rev l) as [|e [|c [|r [|z k]]]]; cbn [length] in L; try lia. exists (rev (z :: k)), r, c, e.
    split; [cbn [rev]; rewrite <- !app_assoc; reflexivity|rewrite rev_length; cbn [length]; lia]. }
  destruct Sp as [m [r [c [e [El Lm]]]]].
  pose proof (gring_rots d m v [r; c; e]) as G1. rewrite <- El in G1. specialize (G1 E L G). cbn [app gring] in G1. destruct G1 as [_ G1].
  pose proof (gring_rots d (m ++ [r]) v [c; e]) as G2. rewrite <- app_assoc in G2. cbn [app] in G2. rewrite <- El in G2. specialize (G2 E L G).
  assert (Er : rev l = e :: c :: r :: rev m) by (rewrite El, rev_app_distr; reflexivity).
  assert (Vm : vat v m = negb v) by (rewrite El, vat_app, !vat_cons, vat_nil, !negb_involutive in V; rewrite <- V at 2; rewrite negb_involutive; reflexivity).
  assert (K : GE P (negb d) (negb v) (rev l ++ [e; c]) /\ GC P (negb v) (rev l ++ [e; c; r])); [|revert K; unfold gring; rewrite Er; tauto]. split.
  - assert (G3 : GE P d v (c :: e :: l)).
    { rewrite vat_app1, Vm, negb_involutive in G2. destruct (m ++ [r]) as [|z k] eqn:Ek; [destruct m; discriminate Ek|]. cbn [gring app] in G2. destruct G2 as [G2 _].
      replace (c :: e :: l) with (c :: e :: z :: k ++ [c; e]); [exact G2|]. do 2 f_equal. change (z :: k ++ [c; e]) with ((z :: k) ++ [c; e]). rewrite <- Ek, El, <- app_assoc. reflexivity. }
    apply GE_rev in G3. rewrite !vat_cons, negb_involutive, V in G3. cbn [rev] in G3. rewrite <- app_assoc in G3. exact G3.
  - assert (G3 : GC P (negb v) (r :: c :: e :: l)) by (rewrite Vm in G1; rewrite El; exact G1).
    apply GC_rev in G3. rewrite !vat_cons, !negb_involutive, V in G3. cbn [rev] in G3. rewrite <- !app_assoc in G3. exact G3.
Qed.
Definition swp (Q : Z -> Z -> bool) (x y : Z) : bool := Q y x.
Lemma gedge_swap d v a b c : gedge P d v a b c -> gedge (swp P) (negb d) (negb v) a b c.
Proof. unfold gedge, swp. destruct v; cbn [negb]; rewrite negb_involutive; intros [H1 H2]; split; intros z Hz; [destruct (H1 z Hz)|destruct (H2 z Hz)|destruct (H1 z Hz)|destruct (H2 z Hz)]; tauto. Qed.
Lemma gcorner_swap v a b c e : gcorner P v a b c e -> gcorner (swp P) (negb v) a b c e.
Proof. unfold gcorner, qd, swp. destruct v; cbn [negb]; destruct (b <? e), (c <? a); tauto. Qed.
Lemma GE_swap d : forall l v, GE P d v l -> GE (swp P) (negb d) (negb v) l.
Proof.
  induction l as [|a l IH]; intros v H; [exact I|]. split; [|apply IH; exact (GE_tl _ _ _ _ H)]. destruct l as [|b [|c l]]; [exact I|exact I|]. destruct H as [H _]. apply gedge_swap in H. exact H.
Qed.
Lemma GC_swap : forall l v, GC P v l -> GC (swp P) (negb v) l.
Proof.
  induction l as [|a l IH]; intros v H; [exact I|]. split; [|apply IH; exact (GC_tl _ _ _ H)]. destruct l as [|b [|c [|e l]]]; [exact I|exact I|exact I|]. destruct H as [H _]. apply gcorner_swap in H. exact H.
Qed.
Lemma gring_swap d v l : gring P d v l -> gring (swp P) (negb d) (negb v) l.
Proof. unfold gring. destruct l as [|a [|b [|c l]]]; try tauto. intros [H1 H2]. split; [apply GE_swap; exact H1|apply GC_swap; exact H2]. Qed.
End Good.
