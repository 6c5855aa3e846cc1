(* The edges of one column: the scan line goes up and turns the ends of the
   column before into the ends of this column. *)
From Verif Require Import Base Units Scan90Spec Poly90Spec Poly90Model Poly90Proofs Set90Model PolyFormGaps PolyFormModel PolyFormLemmas PolyFormHeap PolyFormClose PolyFormState.
From Coq Require Import Arith.

Definition bin (f : Z -> Z) : Prop := forall y, f y = 0 \/ f y = 1.
(* a boundary of a column *)
Definition bd (f : Z -> Z) (k : Z) : Prop := f (k - 1) <> f k.
Definition zero_below (f : Z -> Z) : Prop := exists b, forall y, y < b -> f y = 0.
Definition zero_above (f : Z -> Z) : Prop := exists b, forall y, b <= y -> f y = 0.

Lemma run_const (f : Z -> Z) a b : a <= b -> (forall k, a < k <= b -> ~ bd f k) -> f a = f b.
Proof.
  intros L. pattern b. apply (Zlt_lower_bound_ind _ a); [|exact L]. intros x IH Lx H. destruct (Z.eq_dec x a) as [->|D]; [reflexivity|].
  rewrite (IH (x - 1)); [|lia|intros k Hk; apply H; lia]. specialize (H x ltac:(lia)). unfold bd in H. destruct (Z.eq_dec (f (x - 1)) (f x)) as [E|E]; [exact E|tauto].
Qed.
Lemma bd_dec f k : {bd f k} + {~ bd f k}.
Proof. unfold bd. destruct (Z.eq_dec (f (k - 1)) (f k)); [right|left]; tauto. Qed.

Lemma keys_app m1 m2 : keys (m1 ++ m2) = keys m1 ++ keys m2.
Proof. unfold keys. apply map_app. Qed.
Lemma ids_app m1 m2 : ids (m1 ++ m2) = ids m1 ++ ids m2.
Proof. unfold ids. apply map_app. Qed.
Lemma in_keys k i m : In (k, i) m -> In k (keys m).
Proof. intros H. unfold keys. apply in_map_iff. exists (k, i). split; [reflexivity|exact H]. Qed.
Lemma in_ids k i m : In (k, i) m -> In i (ids m).
Proof. intros H. unfold ids. apply in_map_iff. exists (k, i). split; [reflexivity|exact H]. Qed.
Lemma keys_in k m : In k (keys m) -> exists i, In (k, i) m.
Proof. intros H. unfold keys in H. apply in_map_iff in H. destruct H as [[k' i] [E H]]. cbn [fst] in E. subst k'. exists i. exact H. Qed.

(* the number of boundaries below a row *)
Lemma parity g : bin g -> zero_below g -> forall m p, ksorted m -> (forall k, In k (keys m) <-> k <= p /\ bd g k) -> b2z (odd_len (ids m)) = g p.
Proof.
  intros B [b Zb] m. induction m as [|[k i] m IH] using rev_ind; intros p S K.
  - assert (E : g (Z.min (b - 1) p) = g p).
    { apply run_const; [lia|]. intros k Hk C. assert (In k (keys [])) by (apply K; split; [lia|exact C]). destruct H. }
    rewrite Zb in E by lia. cbn. exact E.
  - assert (Kk : k <= p /\ bd g k) by (apply K; rewrite keys_app, in_app_iff; right; left; reflexivity).
    apply ksorted_app in S. destruct S as [S1 [_ S3]].
    assert (E : g k = g p).
    { apply run_const; [lia|]. intros k' Hk' C. assert (Hin : In k' (keys (m ++ [(k, i)]))) by (apply K; split; [lia|exact C]).
      rewrite keys_app, in_app_iff in Hin. cbn [keys map fst In] in Hin. destruct Hin as [Hin|[Hin|[]]]; [|lia].
      destruct (keys_in _ _ Hin) as [i' Hi']. specialize (S3 (k', i') (k, i) Hi' (or_introl eq_refl)). cbn [fst] in S3. lia. }
    specialize (IH (k - 1) S1). rewrite ids_app, odd_len_app. cbn [ids map snd]. unfold odd_len at 2. cbn [length Nat.odd negb Nat.even].
    assert (IH' : b2z (odd_len (ids m)) = g (k - 1)).
    { apply IH. intros k'. specialize (K k'). rewrite keys_app, in_app_iff in K. cbn [keys map fst In] in K. split.
      - intros Hin. assert (k' < k) by (destruct (keys_in _ _ Hin) as [i' Hi']; specialize (S3 (k', i') (k, i) Hi' (or_introl eq_refl)); cbn [fst] in S3; lia).
        split; [lia|apply K; left; exact Hin].
      - intros [L C]. destruct K as [_ K]. destruct K as [K|[K|[]]]; [split; [lia|exact C]|exact K|lia]. }
    destruct Kk as [_ Kk]. unfold bd in Kk. rewrite <- E. pose proof (B k). destruct (odd_len (ids m)); cbn [xorb Nat.odd Nat.even negb b2z] in *; lia.
Qed.

(* ---------- the map at a row ---------- *)
Record base (f g : Z -> Z) (p : Z) (M1 M2 : tmap) : Prop := {
  ba_sort : ksorted (M1 ++ M2);
  ba_k1 : forall k, In k (keys M1) <-> k <= p /\ bd g k;
  ba_k2 : forall k, In k (keys M2) <-> p < k /\ bd f k }.

Lemma base_le f g p M1 M2 : base f g p M1 M2 -> Forall (fun e => fst e <= p) M1 /\ Forall (fun e => p < fst e) M2.
Proof.
  intros [S K1 K2]. split; rewrite Forall_forall; intros [k i] Hi; cbn [fst].
  - apply K1. apply (in_keys k i). exact Hi.
  - apply K2. apply (in_keys k i). exact Hi.
Qed.
Lemma base_lt f g p M1 M2 : base f g p M1 M2 -> Forall (fun e => fst e < p + 1) M1.
Proof. intros Bs. destruct (base_le _ _ _ _ _ Bs) as [F _]. revert F. apply Forall_impl. intros; lia. Qed.
Lemma base_move f g p p' M1 M2 : base f g p M1 M2 -> p <= p' -> (forall k, p < k <= p' -> (bd f k <-> bd g k)) ->
  exists N1 N2, M2 = N1 ++ N2 /\ base f g p' (M1 ++ N1) N2.
Proof.
  intros [S K1 K2] L E. pose proof S as S'. apply ksorted_app in S'. destruct S' as [S1 [S2 S3]].
  exists (filter (fun e => fst e <=? p') M2), (filter (fun e => negb (fst e <=? p')) M2). pose proof (filter_split p' M2 S2) as Ef. split; [exact Ef|].
  constructor.
  - rewrite <- app_assoc, <- Ef. exact S.
  - intros k. rewrite keys_app, in_app_iff, K1. split.
    + intros [[A B]|A]; [split; [lia|exact B]|]. apply keys_in in A. destruct A as [i A]. apply filter_In in A. cbn [fst] in A. destruct A as [A B].
      assert (H : In k (keys M2)) by (apply (in_keys k i); exact A). apply K2 in H. destruct H as [H1 H2]. split; [lia|]. apply E; [lia|exact H2].
    + intros [A B]. destruct (Z_le_dec k p) as [Lk|Lk]; [left; split; assumption|right]. assert (H : In k (keys M2)) by (apply K2; split; [lia|apply E; [lia|exact B]]).
      apply keys_in in H. destruct H as [i H]. apply (in_keys k i). apply filter_In. cbn [fst]. split; [exact H|lia].
  - intros k. split.
    + intros A. apply keys_in in A. destruct A as [i A]. apply filter_In in A. cbn [fst] in A. destruct A as [A B].
      assert (H : In k (keys M2)) by (apply (in_keys k i); exact A). apply K2 in H. destruct H as [H1 H2]. split; [lia|exact H2].
    + intros [A B]. assert (H : In k (keys M2)) by (apply K2; split; [lia|exact B]).
      apply keys_in in H. destruct H as [i H]. apply (in_keys k i). apply filter_In. cbn [fst]. split; [exact H|lia].
Qed.
Lemma base_quiet f g p p' M1 M2 : base f g p M1 M2 -> p <= p' -> (forall k, p < k <= p' -> ~ bd f k /\ ~ bd g k) -> base f g p' M1 M2.
Proof.
  intros [S K1 K2] L E. constructor; [exact S| |].
  - intros k. rewrite K1. split; [intros [A B]; split; [lia|exact B]|]. intros [A B]. split; [|exact B]. destruct (Z_le_dec k p) as [Lk|Lk]; [exact Lk|]. exfalso. destruct (E k) as [Ef Eg]; [lia|]. tauto.
  - intros k. rewrite K2. split; [|intros [A B]; split; [lia|exact B]]. intros [A B]. split; [|exact B]. destruct (Z_le_dec k p') as [Lk|Lk]; [|lia]. exfalso. destruct (E k) as [Ef Eg]; [lia|]. tauto.
Qed.
(* the next boundary *)
Lemma base_head f g p M1 M2 : base f g p M1 M2 -> bd f (p + 1) -> exists i M2', M2 = (p + 1, i) :: M2'.
Proof.
  intros [S K1 K2] B. assert (H : In (p + 1) (keys M2)) by (apply K2; split; [lia|exact B]).
  destruct M2 as [|[k i] M2]; [destruct H|]. destruct (Z.eq_dec k (p + 1)) as [->|D]; [exists i, M2; reflexivity|].
  apply ksorted_app in S. destruct S as [_ [S _]]. apply ksorted_cons in S. destruct S as [_ F].
  cbn [keys map fst In] in H. destruct H as [H|H]; [congruence|]. apply keys_in in H. destruct H as [i' H]. rewrite Forall_forall in F. specialize (F _ H). cbn [fst] in F.
  assert (In k (keys ((k, i) :: M2))) by (left; reflexivity). apply K2 in H0. lia.
Qed.
Lemma base_none f g p M1 M2 : base f g p M1 M2 -> ~ bd f (p + 1) -> Forall (fun e => p + 1 < fst e) M2.
Proof.
  intros [S K1 K2] B. rewrite Forall_forall. intros [k i] Hi. cbn [fst]. apply in_keys in Hi. apply K2 in Hi. destruct Hi as [Hi1 Hi2].
  destruct (Z.eq_dec k (p + 1)) as [->|D]; [tauto|lia].
Qed.
Lemma base_tail f g p k i M1 M2 : base f g p M1 ((k, i) :: M2) -> Forall (fun e => k < fst e) M2.
Proof. intros [S _ _]. apply ksorted_app in S. destruct S as [_ [S _]]. apply ksorted_cons in S. apply S. Qed.
Lemma base_erase f g p i M1 M2 : base f g p M1 ((p + 1, i) :: M2) -> ~ bd g (p + 1) -> base f g (p + 1) M1 M2.
Proof.
  intros Bs N. pose proof (base_tail _ _ _ _ _ _ _ Bs) as F. destruct Bs as [S K1 K2]. constructor.
  - apply ksorted_app in S. destruct S as [S1 [S2 S3]]. apply ksorted_cons in S2. apply ksorted_app. split; [exact S1|]. split; [apply S2|].
    intros a b Ha Hb. apply S3; [exact Ha|right; exact Hb].
  - intros k. rewrite K1. split; [intros [A B]; split; [lia|exact B]|]. intros [A B]. split; [|exact B]. destruct (Z.eq_dec k (p + 1)) as [->|D]; [tauto|lia].
  - intros k. specialize (K2 k). cbn [keys map fst In] in K2. split.
    + intros H. split; [|apply K2; right; exact H]. apply keys_in in H. destruct H as [i' H]. rewrite Forall_forall in F. specialize (F _ H). exact F.
    + intros [A B]. destruct K2 as [_ K2]. destruct K2 as [K|K]; [split; [lia|exact B]|lia|exact K].
Qed.
Lemma base_assign f g p i i' M1 M2 : base f g p M1 ((p + 1, i) :: M2) -> bd g (p + 1) -> base f g (p + 1) (M1 ++ [(p + 1, i')]) M2.
Proof.
  intros Bs N. pose proof (base_tail _ _ _ _ _ _ _ Bs) as F. destruct Bs as [S K1 K2]. constructor.
  - apply ksorted_app in S. destruct S as [S1 [S2 S3]]. rewrite <- app_assoc. cbn [app]. apply ksorted_app. split; [exact S1|].
    apply ksorted_cons in S2. split; [apply ksorted_cons; exact S2|]. intros a b Ha [<-|Hb]; [exact (S3 a (p + 1, i) Ha (or_introl eq_refl))|apply S3; [exact Ha|right; exact Hb]].
  - intros k. rewrite keys_app, in_app_iff, K1. cbn [keys map fst In]. split.
    + intros [[A B]|[<-|[]]]; [split; [lia|exact B]|split; [lia|exact N]].
    + intros [A B]. destruct (Z.eq_dec k (p + 1)) as [->|D]; [right; left; reflexivity|left; split; [lia|exact B]].
  - intros k. specialize (K2 k). cbn [keys map fst In] in K2. split.
    + intros H. split; [|apply K2; right; exact H]. apply keys_in in H. destruct H as [i1 H]. rewrite Forall_forall in F. specialize (F _ H). exact F.
    + intros [A B]. destruct K2 as [_ K2]. destruct K2 as [K|K]; [split; [lia|exact B]|lia|exact K].
Qed.
Lemma base_insert f g p i' M1 M2 : base f g p M1 M2 -> ~ bd f (p + 1) -> bd g (p + 1) -> base f g (p + 1) (M1 ++ [(p + 1, i')]) M2.
Proof.
  intros Bs Nf N. pose proof (base_none _ _ _ _ _ Bs Nf) as F. pose proof (base_lt _ _ _ _ _ Bs) as F1. destruct Bs as [S K1 K2]. constructor.
  - apply ksorted_app in S. destruct S as [S1 [S2 S3]]. rewrite <- app_assoc. cbn [app]. apply ksorted_app. split; [exact S1|].
    split; [apply ksorted_cons; split; [exact S2|exact F]|]. rewrite Forall_forall in F1. intros a b Ha [<-|Hb]; [exact (F1 a Ha)|apply S3; assumption].
  - intros k. rewrite keys_app, in_app_iff, K1. cbn [keys map fst In]. split.
    + intros [[A B]|[<-|[]]]; [split; [lia|exact B]|split; [lia|exact N]].
    + intros [A B]. destruct (Z.eq_dec k (p + 1)) as [->|D]; [right; left; reflexivity|left; split; [lia|exact B]].
  - intros k. rewrite K2. split; [|intros [A B]; split; [lia|exact B]]. intros [A B]. split; [|exact B]. destruct (Z.eq_dec k (p + 1)) as [->|D]; [tauto|lia].
Qed.
Lemma base_parity f g p M1 M2 : base f g p M1 M2 -> bin g -> zero_below g -> b2z (odd_len (ids M1)) = g p.
Proof. intros [S K1 K2] B Z. apply (parity g B Z M1 p); [|exact K1]. apply ksorted_app in S. apply S. Qed.

(* the iterator *)
Definition it_ok (it : option Z) (M2 : tmap) : Prop := match it with None => True | Some i => Forall (fun e => i <= fst e) M2 end.
Lemma it_app it M N : it_ok it (M ++ N) -> it_ok it N.
Proof. destruct it as [i|]; [|tauto]. cbn [it_ok]. rewrite Forall_app. tauto. Qed.
Lemma it_begin M : ksorted M -> it_ok (m_begin M) M.
Proof.
  destruct M as [|[k i] M]; [intros _; exact I|]. intros S. apply ksorted_cons in S. destruct S as [_ F]. cbn [m_begin it_ok]. constructor; [cbn [fst]; lia|].
  revert F. apply Forall_impl. intros; lia.
Qed.
Lemma find_found f g p i M1 M2 it : base f g p M1 ((p + 1, i) :: M2) -> it_ok it ((p + 1, i) :: M2) ->
  find_at_next (M1 ++ (p + 1, i) :: M2) it (p + 1) = Some i.
Proof.
  intros Bs O. pose proof (base_lt _ _ _ _ _ Bs) as F. unfold find_at_next. rewrite (find_mid (p + 1) i M1 M2 F).
  destruct it as [k|]; [|reflexivity]. cbn [it_ok] in O. inversion O as [|a l H1 H2]; subst. cbn [fst] in H1.
  destruct (k <? p + 1); [reflexivity|]. replace (k >? p + 1) with false by lia. reflexivity.
Qed.
Lemma find_none f g p M1 M2 it : base f g p M1 M2 -> ~ bd f (p + 1) -> find_at_next (M1 ++ M2) it (p + 1) = None.
Proof.
  intros Bs N. pose proof (base_lt _ _ _ _ _ Bs) as F1. pose proof (base_none _ _ _ _ _ Bs N) as F2.
  assert (E : m_find (p + 1) (M1 ++ M2) = None) by (apply find_out, Forall_app; split; [apply Forall_lt_ne; exact F1|apply Forall_gt_ne; exact F2]).
  unfold find_at_next. rewrite E. destruct it as [k|]; [|reflexivity]. destruct (k <? p + 1); [reflexivity|]. destruct (k >? p + 1); reflexivity.
Qed.
Lemma next_key f g p i M1 M2 : base f g p M1 ((p + 1, i) :: M2) -> m_next (p + 1) (M1 ++ (p + 1, i) :: M2) = m_begin M2.
Proof.
  intros Bs. pose proof (base_lt _ _ _ _ _ Bs) as F1. pose proof (base_tail _ _ _ _ _ _ _ Bs) as F2.
  rewrite next_skip by (revert F1; apply Forall_impl; intros; lia). change ((p + 1, i) :: M2) with ([(p + 1, i)] ++ M2).
  rewrite next_skip by (constructor; [cbn [fst]; lia|constructor]). apply next_head. exact F2.
Qed.
Lemma base_sort2 f g p M1 M2 : base f g p M1 M2 -> ksorted M2.
Proof. intros [S _ _]. apply ksorted_app in S. apply S. Qed.

(* ---------- the edges that remain ---------- *)
Fixpoint edges_ok (p : Z) (l : list edge) : Prop :=
  match l with [] => True | (a, b) :: l' => p <= a /\ a < b /\ is_int a /\ is_int b /\ edges_ok (b + 1) l' end.
Definition row_in (y : Z) (l : list edge) : Prop := exists e, In e l /\ fst e <= y < snd e.
Definition rem_ok (p : Z) (f g : Z -> Z) (A B : list edge) : Prop :=
  edges_ok p A /\ edges_ok p B /\ (forall y, p <= y -> (f y = 0 /\ g y = 1 <-> row_in y A)) /\ (forall y, p <= y -> (f y = 1 /\ g y = 0 <-> row_in y B)).
Lemma rem_swap p f g A B : rem_ok p f g A B -> rem_ok p g f B A.
Proof. intros [H1 [H2 [H3 H4]]]. split; [exact H2|]. split; [exact H1|]. split; intros y Hy; [rewrite <- (H4 y Hy)|rewrite <- (H3 y Hy)]; tauto. Qed.
Lemma edges_lows p l e : edges_ok p l -> In e l -> p <= fst e /\ fst e < snd e /\ is_int (fst e) /\ is_int (snd e).
Proof.
  revert p. induction l as [|[a b] l IH]; intros p H; [intros []|]. cbn [edges_ok] in H. destruct H as [H1 [H2 [H3 [H4 H5]]]].
  intros [<-|He]; [cbn [fst snd]; tauto|]. destruct (IH (b + 1) H5 He) as [K1 K2]. split; [lia|exact K2].
Qed.
Lemma edges_head p a b l e : edges_ok p ((a, b) :: l) -> In e ((a, b) :: l) -> a <= fst e.
Proof.
  intros [H1 [H2 [_ [_ H5]]]] [<-|He]; [cbn [fst]; lia|]. destruct (edges_lows (b + 1) l e H5 He) as [K1 _]. lia.
Qed.
Lemma edges_weak p p' l : p' <= p -> edges_ok p l -> edges_ok p' l.
Proof. intros L E. destruct l as [|[a b] l]; [exact I|]. cbn [edges_ok] in *. split; [lia|tauto]. Qed.
Lemma edges_mono p p' l : p <= p' -> (forall e, In e l -> p' <= fst e) -> edges_ok p l -> edges_ok p' l.
Proof.
  intros L H E. destruct l as [|[a b] l]; [exact I|]. cbn [edges_ok] in *. specialize (H (a, b) (or_introl eq_refl)). cbn [fst] in H. tauto.
Qed.
Definition lows (A B : list edge) (l : Z) : Prop := exists e, In e (A ++ B) /\ fst e = l.
Lemma lows_sym A B l : lows A B l <-> lows B A l.
Proof. unfold lows. split; intros [e [H E]]; exists e; (split; [revert H; rewrite !in_app_iff; tauto|exact E]). Qed.

Lemma edge_step p f g L H A B : bin f -> bin g -> rem_ok p f g ((L, H) :: A) B -> (forall e, In e B -> L <= fst e) ->
  p <= L /\ L < H /\ is_int L /\ is_int H /\ (forall y, p <= y < L -> f y = g y) /\ (forall y, L <= y < H -> f y = 0 /\ g y = 1) /\
  rem_ok H f g A B /\ (forall e, In e A -> H < fst e) /\ (forall e, In e B -> H <= fst e) /\
  (f H = g H \/ (f H = 1 /\ g H = 0)) /\ (f H = 1 /\ g H = 0 <-> exists e B', B = e :: B' /\ fst e = H).
Proof.
  intros Bf Bg [EA [EB [RA RB]]] LB. pose proof EA as EA'. cbn [edges_ok] in EA'. destruct EA' as [E1 [E2 [E3 [E4 E5]]]].
  assert (Rows : forall y, L <= y < H -> f y = 0 /\ g y = 1).
  { intros y Hy. apply RA; [lia|]. exists (L, H). split; [left; reflexivity|exact Hy]. }
  assert (LA : forall e, In e A -> H < fst e) by (intros e He; destruct (edges_lows _ _ _ E5 He); lia).
  assert (LB' : forall e, In e B -> H <= fst e).
  { intros e He. pose proof (LB e He) as K. destruct (Z_lt_dec (fst e) H) as [C|C]; [|lia]. exfalso.
    destruct (edges_lows _ _ _ EB He) as [_ [K2 _]]. destruct (RB (fst e) ltac:(lia)) as [_ K3]. specialize (Rows (fst e) ltac:(lia)).
    assert (row_in (fst e) B) by (exists e; split; [exact He|lia]). specialize (K3 H0). lia. }
  assert (NH : ~ (f H = 0 /\ g H = 1)).
  { intros C. apply RA in C; [|lia]. destruct C as [e [[<-|He] K]]; [cbn [fst snd] in K; lia|]. specialize (LA e He). lia. }
  split; [exact E1|]. split; [exact E2|]. split; [exact E3|]. split; [exact E4|]. split.
  { intros y Hy. pose proof (Bf y). pose proof (Bg y). destruct (Z.eq_dec (f y) (g y)) as [E|E]; [exact E|exfalso].
    assert (C : (f y = 0 /\ g y = 1) \/ (f y = 1 /\ g y = 0)) by lia. destruct C as [C|C].
    - apply RA in C; [|lia]. destruct C as [e [He K]]. pose proof (edges_head _ _ _ _ _ EA He). lia.
    - apply RB in C; [|lia]. destruct C as [e [He K]]. specialize (LB e He). lia. }
  split; [exact Rows|]. split.
  { split; [apply (edges_weak (H + 1)); [lia|exact E5]|]. split; [apply (edges_mono p); [lia|exact LB'|exact EB]|]. split.
    - intros y Hy. rewrite (RA y ltac:(lia)). split; intros [e [He K]]; [|exists e; split; [right; exact He|exact K]].
      destruct He as [<-|He]; [cbn [fst snd] in K; lia|]. exists e. tauto.
    - intros y Hy. apply RB. lia. }
  split; [exact LA|]. split; [exact LB'|]. split; [pose proof (Bf H); pose proof (Bg H); lia|].
  rewrite (RB H ltac:(lia)). split.
  - intros [e [He K]]. destruct B as [|[a b] B']; [destruct He|]. exists (a, b), B'. split; [reflexivity|].
    pose proof (edges_head _ _ _ _ _ EB He) as K2. pose proof (LB' (a, b) (or_introl eq_refl)) as K3. cbn [fst] in *. lia.
  - intros [e [B' [-> He]]]. exists e. split; [left; reflexivity|]. destruct (edges_lows _ _ e EB (or_introl eq_refl)) as [_ [K _]]. lia.
Qed.
