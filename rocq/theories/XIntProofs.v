(* Lemmas about extended_int. *)
From Verif Require Import Base Scan90Spec Set90Spec Set90Model IvlModel IvlProofs XIntSpec XIntModel.

Ltac Wlit := change W with 4294967296 in *; change (2 ^ 32) with 4294967296 in *; change (2 ^ 64) with 18446744073709551616 in *.
Lemma W_pos : 0 < W. Proof. reflexivity. Qed.
Lemma u32_range z : 0 <= u32 z < W. Proof. apply Z.mod_pos_bound. reflexivity. Qed.
Lemma u32_id z : 0 <= z < W -> u32 z = z. Proof. intros. apply Z.mod_small. exact H. Qed.
Lemma u64_id z : 0 <= z < W * W -> u64 z = z. Proof. intros. apply Z.mod_small. exact H. Qed.
Lemma shr32 z : Z.shiftr z 32 = z / W. Proof. rewrite Z.shiftr_div_pow2 by lia. reflexivity. Qed.
Lemma split32 z : z = u32 z + W * (z / W). Proof. unfold u32. pose proof (Z.div_mod z W ltac:(discriminate)) as H. change (2 ^ 32) with W. lia. Qed.
Definition Wn (n : nat) : Z := W ^ Z.of_nat n.
Lemma Wn_0 : Wn 0 = 1. Proof. reflexivity. Qed.
Lemma Wn_S n : Wn (S n) = W * Wn n. Proof. unfold Wn. rewrite Nat2Z.inj_succ, Z.pow_succ_r by lia. reflexivity. Qed.
Lemma Wn_pos n : 0 < Wn n. Proof. apply Z.pow_pos_nonneg; [exact W_pos|lia]. Qed.
Lemma Wn_add m n : Wn (m + n) = Wn m * Wn n. Proof. unfold Wn. rewrite Nat2Z.inj_add, Z.pow_add_r by lia. reflexivity. Qed.
Lemma Wn_le m n : (m <= n)%nat -> Wn m <= Wn n. Proof. intros H. apply Z.pow_le_mono_r; [exact W_pos|lia]. Qed.

Lemma value_range l : digits l -> 0 <= value l < Wn (length l).
Proof.
  induction 1 as [|d l H D IH]; cbn [value length]; [rewrite Wn_0; lia|]. rewrite Wn_S. pose proof W_pos. nia.
Qed.
Lemma value_app l m : value (l ++ m) = value l + Wn (length l) * value m.
Proof. induction l as [|d l IH]; cbn [value length app]; [rewrite Wn_0; lia|]. rewrite IH, Wn_S. ring. Qed.
Lemma digits_app l m : digits (l ++ m) <-> digits l /\ digits m.
Proof. apply Forall_app. Qed.
Lemma digits_rev l : digits (rev l) <-> digits l.
Proof. unfold digits. rewrite !Forall_forall. split; intros H x I; apply H; [rewrite <- in_rev|rewrite in_rev]; assumption. Qed.
Lemma last_split (l : list Z) : l <> [] -> l = removelast l ++ [last l 0].
Proof. apply app_removelast_last. Qed.
Lemma top_value l d : digits (l ++ [d]) -> (d <> 0 <-> Wn (length l) <= value (l ++ [d])).
Proof.
  intros D. apply digits_app in D as [D1 D2]. inversion D2 as [|x y H _]; subst. rewrite value_app. cbn [value]. pose proof (value_range l D1). pose proof (Wn_pos (length l)). split; intros; nia.
Qed.
Lemma canonical_value l : digits l -> l <> [] -> (canonical l <-> Wn (length l - 1) <= value l).
Proof.
  intros D N. rewrite (last_split l N) in D. pose proof (top_value _ _ D) as T. rewrite <- (last_split l N) in T.
  assert (L : length (removelast l) = (length l - 1)%nat). { rewrite (last_split l N) at 2. rewrite app_length. cbn [length]. lia. }
  rewrite L in T. unfold canonical. split; [intros [E|E]; [congruence|apply T; exact E]|intros H; right; apply T; exact H].
Qed.
Lemma value_zero l : digits l -> canonical l -> value l = 0 -> l = [].
Proof.
  intros D C E. destruct l as [|d l']; [reflexivity|]. exfalso. apply canonical_value in C; [|exact D|discriminate]. pose proof (Wn_pos (length (d :: l') - 1)). lia.
Qed.

(* ---------- addition of chunks ---------- *)
Lemma add_loop_spec c1 : forall c2 t, digits c1 -> digits c2 -> (length c2 <= length c1)%nat -> 0 <= t <= 1 ->
  let '(r, k) := add_loop c1 c2 t in
  length r = length c1 /\ digits r /\ 0 <= k <= 1 /\ value r + Wn (length c1) * k = value c1 + value c2 + t.
Proof.
  induction c1 as [|a c1 IH]; intros c2 t D1 D2 L T; cbn [add_loop].
  - destruct c2; [|cbn [length] in L; lia]. cbn [length value]. rewrite Wn_0. repeat split; try lia. constructor.
  - inversion D1 as [|x y Ha D1']; subst. destruct c2 as [|b c2].
    + rewrite u64_id by (Wlit; lia). rewrite shr32.
      assert (T' : 0 <= (t + a) / W <= 1). { split; [apply Z.div_pos; [lia|reflexivity]|]. apply Z.lt_succ_r. apply Z.div_lt_upper_bound; [reflexivity|Wlit; lia]. }
      specialize (IH [] _ D1' (Forall_nil _) ltac:(cbn [length]; lia) T'). destruct (add_loop c1 [] ((t + a) / W)) as [r k]. destruct IH as [L1 [D [K V]]].
      cbn [length value]. rewrite L1. split; [reflexivity|]. split; [constructor; [apply u32_range|exact D]|]. split; [exact K|].
      rewrite Wn_S. cbn [value] in V. pose proof (split32 (t + a)) as S. nia.
    + inversion D2 as [|x y Hb D2']; subst. rewrite u64_id by (Wlit; lia). rewrite shr32.
      assert (T' : 0 <= (t + (a + b)) / W <= 1). { split; [apply Z.div_pos; [lia|reflexivity]|]. apply Z.lt_succ_r. apply Z.div_lt_upper_bound; [reflexivity|Wlit; lia]. }
      specialize (IH c2 _ D1' D2' ltac:(cbn [length] in L; lia) T'). destruct (add_loop c1 c2 ((t + (a + b)) / W)) as [r k]. destruct IH as [L1 [D [K V]]].
      cbn [length value]. rewrite L1. split; [reflexivity|]. split; [constructor; [apply u32_range|exact D]|]. split; [exact K|].
      rewrite Wn_S. pose proof (split32 (t + (a + b))) as S. nia.
Qed.
Definition pos_result (N : nat) (r : xint) : Prop := x_count r = Z.of_nat (length (x_chunks r)) /\ (length (x_chunks r) <= N)%nat /\ digits (x_chunks r).
Lemma add_chunks_spec N c1 c2 : digits c1 -> digits c2 -> (length c1 <= N)%nat -> (length c2 <= N)%nat ->
  pos_result N (add_chunks N c1 c2) /\ value (x_chunks (add_chunks N c1 c2)) = (value c1 + value c2) mod Wn N /\
  (Nat.max (length c1) (length c2) <= length (x_chunks (add_chunks N c1 c2)))%nat.
Proof.
  intros D1 D2 L1 L2. unfold add_chunks.
  assert (G : forall c1 c2, digits c1 -> digits c2 -> (length c1 <= N)%nat -> (length c2 <= length c1)%nat ->
    let x := let '(r, temp) := add_loop c1 c2 0 in
      if negb (temp =? 0) && negb (length r =? N)%nat then mk_x (Z.of_nat (length r) + 1) (r ++ [u32 temp]) else mk_x (Z.of_nat (length r)) r in
    pos_result N x /\ value (x_chunks x) = (value c1 + value c2) mod Wn N /\ (length c1 <= length (x_chunks x))%nat).
  { clear. intros c1 c2 D1 D2 L1 L2. pose proof (add_loop_spec c1 c2 0 D1 D2 L2 ltac:(lia)) as S. destruct (add_loop c1 c2 0) as [r k]. destruct S as [L [D [K V]]].
    assert (VR := value_range r D). rewrite L in VR. destruct (negb (k =? 0) && negb (length r =? N)%nat) eqn:E.
    - apply andb_true_iff in E as [E1 E2]. apply negb_true_iff in E2. apply Nat.eqb_neq in E2. assert (k = 1) by lia. subst k.
      cbv zeta. unfold pos_result; cbn [x_count x_chunks]. rewrite app_length. cbn [length]. rewrite L in *. split; [|split; [|lia]].
      + split; [lia|]. split; [lia|]. apply digits_app. split; [exact D|]. constructor; [apply u32_range|constructor].
      + rewrite value_app, L. cbn [value]. rewrite u32_id by (Wlit; lia). rewrite Z.mod_small; [lia|].
        assert (Wn (S (length c1)) <= Wn N) by (apply Wn_le; lia). rewrite Wn_S in H. Wlit. lia.
    - cbv zeta. unfold pos_result; cbn [x_count x_chunks]. rewrite L. split; [|split; [|lia]].
      + split; [lia|]. split; [lia|exact D].
      + assert (C : k = 0 \/ k = 1 /\ length c1 = N). { apply andb_false_iff in E as [E|E]; [left; lia|]. apply negb_false_iff, Nat.eqb_eq in E. rewrite L in E. lia. }
        destruct C as [->|[-> <-]].
        * rewrite Z.mod_small; [lia|]. pose proof (Wn_le (length c1) N ltac:(lia)). lia.
        * replace (value c1 + value c2) with (value r + 1 * Wn (length c1)) by lia. rewrite Z.mod_add by (pose proof (Wn_pos (length c1)); lia). rewrite Z.mod_small; lia. }
  destruct (Nat.ltb_spec (length c1) (length c2)) as [H|H].
  - destruct (G c2 c1 D2 D1 L2 ltac:(lia)) as [A [B C]]. cbv zeta in A, B, C. rewrite (Z.add_comm (value c1)). split; [exact A|]. split; [exact B|]. rewrite Nat.max_r by lia. exact C.
  - destruct (G c1 c2 D1 D2 L1 ltac:(lia)) as [A [B C]]. cbv zeta in A, B, C. split; [exact A|]. split; [exact B|]. rewrite Nat.max_l by lia. exact C.
Qed.

(* ---------- subtraction of chunks ---------- *)
Lemma dif_loop_spec c1 : forall c2 (f : bool), digits c1 -> digits c2 -> (length c2 <= length c1)%nat ->
  let r := dif_loop c1 c2 f in length r = length c1 /\ digits r /\
  exists k, 0 <= k <= 1 /\ value r = value c1 - value c2 - b2z f + Wn (length c1) * k.
Proof.
  assert (B : forall x, - W <= x < W -> exists k, 0 <= k <= 1 /\ u32 x = x + W * k /\ (k = 1 <-> x < 0)).
  { intros x X. destruct (Z.ltb_spec x 0) as [L|L].
    - exists 1. split; [lia|]. split; [|lia]. unfold u32. change (2 ^ 32) with W. replace x with ((x + W) + (-1) * W) at 1 by ring. rewrite Z.mod_add by discriminate. rewrite Z.mod_small; lia.
    - exists 0. split; [lia|]. split; [|lia]. rewrite u32_id; lia. }
  induction c1 as [|a c1 IH]; intros c2 f D1 D2 L; cbv zeta; cbn [dif_loop].
  - destruct c2; [|cbn [length] in L; lia]. cbn [length value]. split; [reflexivity|]. split; [constructor|]. exists (b2z f). rewrite Wn_0. destruct f; cbn [b2z]; lia.
  - inversion D1 as [|x y Ha D1']; subst. destruct c2 as [|b c2].
    + specialize (IH [] ((a =? 0) && f) D1' (Forall_nil _) ltac:(cbn [length]; lia)) as [L1 [D [k [K V]]]]. cbn [length value]. rewrite L1. split; [reflexivity|].
      split; [constructor; [apply u32_range|exact D]|]. exists k. split; [exact K|]. rewrite Wn_S, V. cbn [value].
      destruct (B (a - b2z f)) as [j [J [E F]]]; [destruct f; cbn [b2z]; lia|]. rewrite E.
      assert (j = b2z ((a =? 0) && f)) by (destruct f, (a =? 0) eqn:Z0; cbn [b2z andb] in *; lia). subst j. nia.
    + inversion D2 as [|x y Hb D2']; subst. specialize (IH c2 ((a <? b) || ((a =? b) && f)) D1' D2' ltac:(cbn [length] in L; lia)) as [L1 [D [k [K V]]]].
      cbn [length value]. rewrite L1. split; [reflexivity|]. split; [constructor; [apply u32_range|exact D]|]. exists k. split; [exact K|]. rewrite Wn_S, V.
      destruct (B (a - b - b2z f)) as [j [J [E F]]]; [destruct f; cbn [b2z]; lia|]. rewrite E.
      assert (j = b2z ((a <? b) || ((a =? b) && f))) by (destruct f, (a <? b) eqn:Z0, (a =? b) eqn:Z1; cbn [b2z andb orb] in *; lia). subst j. nia.
Qed.
Lemma dif_core_spec N c1 c2 : digits c1 -> digits c2 -> (length c2 <= length c1)%nat -> (length c1 <= N)%nat -> (0 < length c1)%nat -> value c2 <= value c1 ->
  pos_result N (dif_core c1 c2) /\ value (x_chunks (dif_core c1 c2)) = value c1 - value c2 /\
  (length c1 - 1 <= length (x_chunks (dif_core c1 c2)) <= length c1)%nat /\
  (length (x_chunks (dif_core c1 c2)) = length c1 -> canonical (x_chunks (dif_core c1 c2))).
Proof.
  intros D1 D2 L LN P V. unfold dif_core. destruct (dif_loop_spec c1 c2 false D1 D2 L) as [LR [D [k [K E]]]]. set (r := dif_loop c1 c2 false) in *. cbn [b2z] in E.
  pose proof (value_range r D) as VR. rewrite LR in VR. pose proof (value_range c1 D1). pose proof (value_range c2 D2).
  assert (k = 0) by (pose proof (Wn_pos (length c1)); nia). subst k.
  set (n := (length c1 - 1)%nat) in *. assert (LS : length r = S n) by lia.
  assert (SP : r = firstn n r ++ [nth n r 0]).
  { rewrite <- (firstn_skipn n r) at 1. f_equal. assert (SL : length (skipn n r) = 1%nat) by (rewrite skipn_length; lia).
    rewrite <- (firstn_skipn n r) at 2. rewrite app_nth2 by (rewrite firstn_length; lia). rewrite firstn_length. replace (n - Nat.min n (length r))%nat with 0%nat by lia.
    destruct (skipn n r) as [|x [|y t]]; cbn [length] in SL; try lia. reflexivity. }
  assert (FL : length (firstn n r) = n) by (rewrite firstn_length; lia).
  destruct (nth n r 0 =? 0) eqn:Z0; cbn [negb]; unfold pos_result; cbn [x_count x_chunks].
  - rewrite FL. assert (DF : digits (firstn n r)) by (rewrite SP in D; apply digits_app in D; tauto). split; [|split; [|split]].
    + split; [reflexivity|]. split; [lia|exact DF].
    + rewrite SP, value_app in E. cbn [value] in E. lia.
    + lia.
    + intros H1. exfalso. lia.
  - split; [|split; [|split]].
    + split; [lia|]. split; [lia|exact D].
    + lia.
    + lia.
    + intros _. right. rewrite SP, last_last. lia.
Qed.
Lemma scan_spec r1 : forall r2, digits r1 -> digits r2 -> length r1 = length r2 ->
  match dif_scan r1 r2 with
  | None => r1 = r2
  | Some (b, s1, s2) => digits s1 /\ digits s2 /\ length s1 = length s2 /\ (0 < length s1 <= length r1)%nat /\
      value (rev r1) - value (rev r2) = value (rev s1) - value (rev s2) /\ (if b then value (rev s1) < value (rev s2) else value (rev s2) < value (rev s1))
  end.
Proof.
  induction r1 as [|a r1 IH]; intros [|b r2] D1 D2 L; cbn [length] in L; try lia; cbn [dif_scan]; [reflexivity|].
  pose proof D1 as D1a. pose proof D2 as D2a. inversion D1 as [|x y Ha D1']; subst. inversion D2 as [|x y Hb D2']; subst.
  assert (V1 := value_range (rev r1) (proj2 (digits_rev r1) D1')). assert (V2 := value_range (rev r2) (proj2 (digits_rev r2) D2')).
  rewrite !rev_length in *. assert (LL : length r1 = length r2) by lia. rewrite LL in V1. pose proof (Wn_pos (length r2)).
  destruct (a <? b) eqn:E1; [|destruct (a >? b) eqn:E2].
  - split; [assumption|]. split; [assumption|]. split; [cbn [length]; lia|]. split; [cbn [length]; lia|]. split; [reflexivity|].
    cbn [rev]. rewrite !value_app, !rev_length, LL. cbn [value]. nia.
  - split; [assumption|]. split; [assumption|]. split; [cbn [length]; lia|]. split; [cbn [length]; lia|]. split; [reflexivity|].
    cbn [rev]. rewrite !value_app, !rev_length, LL. cbn [value]. nia.
  - assert (a = b) by lia. subst b. specialize (IH r2 D1' D2' LL). destruct (dif_scan r1 r2) as [[[b s1] s2]|].
    + destruct IH as [A [B [C [D [E F]]]]]. split; [exact A|]. split; [exact B|]. split; [exact C|]. split; [cbn [length]; lia|]. split; [|exact F].
      cbn [rev]. rewrite !value_app, !rev_length, LL. lia.
    + congruence.
Qed.
Lemma x_neg_value x : x_value (x_neg x) = - x_value x.
Proof. unfold x_value, x_neg; cbn [x_count x_chunks]. rewrite Z.sgn_opp. ring. Qed.
Lemma x_neg_wf N x : x_wf N x -> x_wf N (x_neg x).
Proof. intros [A [B C]]. unfold x_wf, x_neg; cbn [x_count x_chunks]. rewrite Z.abs_opp. auto. Qed.
Lemma pos_wf N r : pos_result N r -> x_wf N r /\ x_value r = value (x_chunks r) /\ 0 <= x_count r.
Proof.
  intros [A [B C]]. unfold x_wf, x_value. rewrite A. split; [split; [lia|auto]|]. split; [|lia].
  destruct (x_chunks r) as [|d l] eqn:E; [reflexivity|]. rewrite <- E in *. assert (0 < Z.of_nat (length (x_chunks r))) by (rewrite E; cbn [length]; lia). rewrite Z.sgn_pos by lia. lia.
Qed.
(* chunk lists whose order is the order of their lengths unless they are equally long *)
Definition comparable (c1 c2 : list Z) : Prop :=
  ((length c1 < length c2)%nat -> value c1 <= value c2) /\ ((length c2 < length c1)%nat -> value c2 <= value c1).
Lemma canonical_comparable c1 c2 : digits c1 -> digits c2 -> canonical c1 -> canonical c2 -> comparable c1 c2.
Proof.
  assert (H : forall d1 d2, digits d1 -> digits d2 -> canonical d2 -> (length d1 < length d2)%nat -> value d1 <= value d2).
  { clear c1 c2. intros c1 c2 D1 D2 C2 L. assert (N : c2 <> []) by (intros ->; cbn [length] in L; lia). apply canonical_value in C2; [|exact D2|exact N].
    pose proof (value_range c1 D1). pose proof (Wn_le (length c1) (length c2 - 1) ltac:(lia)). lia. }
  intros. split; intros; apply H; assumption.
Qed.
Lemma dif_chunks_spec N c1 c2 : digits c1 -> digits c2 -> (length c1 <= N)%nat -> (length c2 <= N)%nat -> (0 < length c1)%nat -> (0 < length c2)%nat -> comparable c1 c2 ->
  x_wf N (dif_chunks c1 c2) /\ x_value (dif_chunks c1 c2) = value c1 - value c2 /\
  (length (x_chunks (dif_chunks c1 c2)) <= Nat.max (length c1) (length c2))%nat /\
  (value c1 = value c2 \/ Wn (Nat.max (length c1) (length c2) - 2) <= Z.abs (value c1 - value c2) -> length c1 = length c2 \/ value c1 <> value c2 -> x_canonical (dif_chunks c1 c2)).
Proof.
  intros D1 D2 L1 L2 P1 P2 [C1 C2]. unfold dif_chunks.
  assert (G : forall c1 c2 m, digits c1 -> digits c2 -> (length c1 <= N)%nat -> (length c2 <= length c1)%nat -> (0 < length c1 <= m)%nat -> value c2 <= value c1 ->
     let x := dif_core c1 c2 in x_wf N x /\ x_value x = value c1 - value c2 /\ (length (x_chunks x) <= m)%nat /\
       (Wn (m - 2) <= value c1 - value c2 -> x_canonical x)).
  { clear. intros c1 c2 m D1 D2 L1 L P V. destruct (dif_core_spec N c1 c2 D1 D2 L L1 ltac:(lia) V) as [A [B [C D]]]. cbv zeta.
    destruct (pos_wf _ _ A) as [W1 [W2 W3]]. split; [exact W1|]. split; [rewrite W2; exact B|]. split; [lia|]. intros H. unfold x_canonical.
    destruct (Nat.eq_dec (length (x_chunks (dif_core c1 c2))) (length c1)) as [E|E]; [apply D; exact E|].
    destruct A as [_ [_ DD]]. destruct (x_chunks (dif_core c1 c2)) as [|d l] eqn:EQ; [left; reflexivity|]. rewrite <- EQ in *.
    assert (LX : length (x_chunks (dif_core c1 c2)) = (length c1 - 1)%nat) by lia.
    apply canonical_value; [exact DD|rewrite EQ; discriminate|]. rewrite LX, B. pose proof (Wn_le (length c1 - 1 - 1) (m - 2) ltac:(lia)). lia. }
  destruct (Nat.ltb_spec (length c1) (length c2)) as [H|H].
  - destruct (G c2 c1 (length c2) D2 D1 L2 ltac:(lia) ltac:(lia) (C1 H)) as [A [B [C D]]]. split; [apply x_neg_wf; exact A|]. split; [rewrite x_neg_value, B; ring|].
    split; [cbn [x_neg x_chunks]; lia|]. intros Q Q'. unfold x_canonical; cbn [x_neg x_chunks]. apply D. rewrite Nat.max_r in Q by lia. destruct Q as [Q|Q]; [lia|]. rewrite Z.abs_neq in Q; [lia|]. specialize (C1 H). lia.
  - destruct (Nat.eqb_spec (length c1) (length c2)) as [E|E].
    + pose proof (scan_spec (rev c1) (rev c2) (proj2 (digits_rev _) D1) (proj2 (digits_rev _) D2) ltac:(rewrite !rev_length; exact E)) as S.
      rewrite !rev_involutive, !rev_length in S. destruct (dif_scan (rev c1) (rev c2)) as [[[b s1] s2]|].
      * destruct S as [S1 [S2 [S3 [S4 [S5 S6]]]]]. apply digits_rev in S1, S2. destruct b.
        -- destruct (G (rev s2) (rev s1) (length c2) S2 S1) as [A [B [C D]]]; try (rewrite !rev_length; lia); [lia|]. split; [apply x_neg_wf; exact A|]. split; [rewrite x_neg_value, B; lia|].
           split; [cbn [x_neg x_chunks]; lia|]. intros Q Q'. unfold x_canonical; cbn [x_neg x_chunks]. apply D. rewrite Nat.max_r in Q by lia. destruct Q as [Q|Q]; lia.
        -- destruct (G (rev s1) (rev s2) (length c1) S1 S2) as [A [B [C D]]]; try (rewrite !rev_length; lia); [lia|]. split; [exact A|]. split; [rewrite B; lia|].
           split; [lia|]. intros Q Q'. apply D. rewrite Nat.max_l in Q by lia. destruct Q as [Q|Q]; lia.
      * assert (c1 = c2) by (rewrite <- (rev_involutive c1), S, rev_involutive; reflexivity). subst c2. split; [split; [reflexivity|]; split; [cbn [x_chunks length]; lia|constructor]|].
        split; [cbn [x_value x_count x_chunks value]; unfold x_value; cbn [x_count]; lia|]. split; [cbn [x_chunks length]; lia|]. intros _ _. left. reflexivity.
    + destruct (G c1 c2 (length c1) D1 D2 L1 ltac:(lia) ltac:(lia) (C2 ltac:(lia))) as [A [B [C D]]]. split; [exact A|]. split; [exact B|].
      split; [lia|]. intros Q Q'. apply D. rewrite Nat.max_l in Q by lia. specialize (C2 ltac:(lia)). destruct Q as [Q|Q]; [lia|]. rewrite Z.abs_eq in Q by lia. exact Q.
Qed.

(* ---------- multiplication of chunks ---------- *)
Fixpoint conv (c1 c2 : list Z) (s : nat) : Z :=
  match c1 with
  | [] => 0
  | a :: c1' => a * nth s c2 0 + match s with O => 0 | S s' => conv c1' c2 s' end
  end.
Fixpoint csum (n shift : nat) (c1 c2 : list Z) : Z :=
  match n with O => 0 | S n' => conv c1 c2 shift + W * csum n' (S shift) c1 c2 end.
Lemma nth_error_nth0 (l : list Z) n : nth n l 0 = match nth_error l n with Some b => b | None => 0 end.
Proof. revert n. induction l as [|a l IH]; intros [|n]; cbn; auto. Qed.
Lemma nth_digit l n : digits l -> 0 <= nth n l 0 < W.
Proof. intros D. destruct (nth_in_or_default n l 0) as [I| ->]; [|split; [lia|reflexivity]]. exact (proj1 (Forall_forall _ _) D _ I). Qed.
Lemma prod_split a b : 0 <= a < W -> 0 <= b < W -> 0 <= u32 (u64 (a * b)) < W /\ 0 <= Z.shiftr (u64 (a * b)) 32 < W /\ a * b = u32 (u64 (a * b)) + W * Z.shiftr (u64 (a * b)) 32.
Proof.
  intros A B. rewrite u64_id by nia. rewrite shr32. split; [apply u32_range|]. split; [|apply split32].
  split; [apply Z.div_pos; [nia|reflexivity]|]. apply Z.div_lt_upper_bound; [reflexivity|nia].
Qed.
Lemma mul_inner_spec c1 : forall c2 s cur nxt m, digits c1 -> digits c2 -> 0 <= cur -> 0 <= nxt -> Z.of_nat (length c1) <= m ->
  cur + m * W <= W * W -> nxt + m * W <= W * W ->
  let '(cur', nxt') := mul_inner c1 c2 s cur nxt in
  cur' + W * nxt' = cur + W * nxt + conv c1 c2 s /\ 0 <= cur' <= cur + m * (W - 1) /\ 0 <= nxt' <= nxt + m * (W - 1).
Proof.
  induction c1 as [|a c1 IH]; intros c2 s cur nxt m D1 D2 C X M BC BN; cbn [mul_inner conv length] in *.
  - split; [lia|]. pose proof W_pos. nia.
  - inversion D1 as [|x y Ha D1']; subst. rewrite (nth_error_nth0 c2 s). assert (MW : W <= m * W) by (pose proof W_pos; nia).
    assert (G : exists cur' nxt', match nth_error c2 s with
        | None => (cur, nxt)
        | Some b => let tmp := u64 (a * b) in (u64 (cur + u32 tmp), u64 (nxt + Z.shiftr tmp 32))
        end = (cur', nxt') /\ cur' + W * nxt' = cur + W * nxt + a * match nth_error c2 s with Some b => b | None => 0 end /\ 0 <= cur' <= cur + (W - 1) /\ 0 <= nxt' <= nxt + (W - 1)).
    { destruct (nth_error c2 s) as [b|] eqn:E.
      - pose proof (nth_digit c2 s D2) as Hb. rewrite nth_error_nth0, E in Hb. destruct (prod_split a b Ha Hb) as [P1 [P2 P3]]. cbv zeta. set (tmp := u64 (a * b)) in *. clearbody tmp.
        eexists _, _. split; [reflexivity|]. rewrite !u64_id by lia. split; lia.
      - exists cur, nxt. split; [reflexivity|]. pose proof W_pos. split; [ring|lia]. }
    destruct G as [cur' [nxt' [E [V [R1 R2]]]]]. cbv zeta in E |- *. rewrite E. pose proof W_pos as WP. destruct s as [|s].
    + split; [lia|]. nia.
    + specialize (IH c2 s cur' nxt' (m - 1) D1' D2 ltac:(lia) ltac:(lia) ltac:(lia) ltac:(nia) ltac:(nia)).
      destruct (mul_inner c1 c2 s cur' nxt') as [cur'' nxt'']. destruct IH as [V' [R1' R2']]. split; [lia|]. nia.
Qed.
Lemma mul_loop_spec n : forall s c1 c2 cur, digits c1 -> digits c2 -> 2 * Z.of_nat (length c1) + 1 < W -> 0 <= cur <= Z.of_nat (length c1) * (W + 1) ->
  let '(r, k) := mul_loop n s c1 c2 cur in
  length r = n /\ digits r /\ 0 <= k /\ value r + Wn n * k = cur + csum n s c1 c2.
Proof.
  induction n as [|n IH]; intros s c1 c2 cur D1 D2 M C; cbn [mul_loop csum].
  - cbn [length value]. rewrite Wn_0. repeat split; try lia. constructor.
  - set (m := Z.of_nat (length c1)) in *. assert (WV : W = 4294967296) by reflexivity.
    pose proof (mul_inner_spec c1 c2 s cur 0 m D1 D2 ltac:(lia) ltac:(lia) ltac:(lia) ltac:(nia) ltac:(nia)) as S.
    destruct (mul_inner c1 c2 s cur 0) as [cur' nxt]. destruct S as [V [R1 R2]]. rewrite shr32.
    assert (Q : 0 <= cur' / W <= 2 * m). { split; [apply Z.div_pos; [lia|reflexivity]|]. apply Z.div_le_upper_bound; [reflexivity|nia]. }
    rewrite u64_id by nia. specialize (IH (S s) c1 c2 (nxt + cur' / W) D1 D2 M ltac:(fold m; nia)).
    destruct (mul_loop n (S s) c1 c2 (nxt + cur' / W)) as [r k]. destruct IH as [L [D [K E]]].
    cbn [length value]. split; [lia|]. split; [constructor; [apply u32_range|exact D]|]. split; [exact K|].
    rewrite Wn_S. pose proof (split32 cur') as SP. nia.
Qed.
Lemma conv_nonneg c1 c2 : digits c1 -> digits c2 -> forall s, 0 <= conv c1 c2 s.
Proof.
  induction 1 as [|a c1 Ha D1 IH]; intros D2 s; cbn [conv]; [lia|]. pose proof (nth_digit c2 s D2). destruct s as [|s]; [nia|]. specialize (IH D2 s). nia.
Qed.
Lemma csum_nonneg c1 c2 : digits c1 -> digits c2 -> forall n s, 0 <= csum n s c1 c2.
Proof. intros D1 D2. induction n as [|n IH]; intros s; cbn [csum]; [lia|]. pose proof (conv_nonneg c1 c2 D1 D2 s). specialize (IH (S s)). pose proof W_pos. nia. Qed.
Lemma csum_split c1 c2 m : forall n s, csum (n + m) s c1 c2 = csum n s c1 c2 + Wn n * csum m (n + s) c1 c2.
Proof.
  induction n as [|n IH]; intros s; cbn [csum Nat.add]; [rewrite Wn_0; lia|]. rewrite IH, Wn_S. replace (n + S s)%nat with (S (n + s)) by lia. ring.
Qed.
Lemma csum_shift a c1 c2 : forall n s, csum n (S s) (a :: c1) c2 = a * csum n (S s) [1] c2 + csum n s c1 c2.
Proof.
  induction n as [|n IH]; intros s; cbn [csum]; [ring|]. rewrite IH. cbn [conv]. ring.
Qed.
Lemma csum_one c2 : forall n s, (length c2 <= n + s)%nat -> csum n s [1] c2 = value (skipn s c2).
Proof.
  induction n as [|n IH]; intros s L; cbn [csum].
  - rewrite skipn_all2 by lia. reflexivity.
  - rewrite IH by lia. cbn [conv]. assert (E : (match s with O => 0 | S _ => 0 end) = 0) by (destruct s; reflexivity). rewrite E.
    destruct (Nat.ltb_spec s (length c2)) as [H|H].
    + assert (SK : skipn s c2 = nth s c2 0 :: skipn (S s) c2).
      { clear - H. revert s H. induction c2 as [|b c2 IH]; intros s H; [cbn [length] in H; lia|]. destruct s as [|s]; [reflexivity|]. cbn [length] in H. cbn [nth]. change (skipn (S s) (b :: c2)) with (skipn s c2). rewrite (IH s) by lia. reflexivity. }
      rewrite SK. cbn [value]. lia.
    + rewrite !skipn_all2 by lia. rewrite nth_overflow by lia. reflexivity.
Qed.
Lemma csum_full c1 : forall c2 n, c2 <> [] -> (length c1 + length c2 <= S n)%nat -> csum n 0 c1 c2 = value c1 * value c2.
Proof.
  induction c1 as [|a c1 IH]; intros c2 n N L; cbn [value].
  - rewrite Z.mul_0_l. generalize 0%nat as s. clear. induction n as [|n IH]; intros s; cbn [csum conv]; [reflexivity|]. rewrite IH. ring.
  - destruct n as [|n]. { destruct c2; [congruence|]. cbn [length] in L. lia. }
    cbn [csum]. rewrite csum_shift, IH; [|exact N|cbn [length] in L; lia]. rewrite csum_one by (cbn [length] in L; lia).
    destruct c2 as [|b c2]; [congruence|]. cbn [conv nth skipn value]. ring.
Qed.
Lemma mul_chunks_spec N c1 c2 : digits c1 -> digits c2 -> c1 <> [] -> c2 <> [] -> 2 * Z.of_nat (length c1) + 1 < W ->
  pos_result N (mul_chunks N c1 c2) /\ value (x_chunks (mul_chunks N c1 c2)) = (value c1 * value c2) mod Wn N /\
  (canonical c1 -> canonical c2 -> value c1 * value c2 < Wn N -> canonical (x_chunks (mul_chunks N c1 c2))) /\
  (Nat.min N (length c1 + length c2 - 1) <= length (x_chunks (mul_chunks N c1 c2)))%nat.
Proof.
  intros D1 D2 N1 N2 M. unfold mul_chunks. set (f := (length c1 + length c2 - 1)%nat). set (n := Nat.min N f).
  assert (P1 : (0 < length c1)%nat) by (destruct c1; [congruence|cbn [length]; lia]). assert (P2 : (0 < length c2)%nat) by (destruct c2; [congruence|cbn [length]; lia]).
  assert (WV : W = 4294967296) by reflexivity.
  pose proof (mul_loop_spec n 0 c1 c2 0 D1 D2 M ltac:(nia)) as S. destruct (mul_loop n 0 c1 c2 0) as [r k]. destruct S as [L [D [K V]]].
  pose proof (csum_full c1 c2 f N2 ltac:(unfold f; lia)) as F. assert (SP := csum_split c1 c2 (f - n) n 0). replace (n + (f - n))%nat with f in SP by (unfold n; lia). rewrite F in SP.
  pose proof (csum_nonneg c1 c2 D1 D2 (f - n) (n + 0)) as RN. set (rest := csum (f - n) (n + 0) c1 c2) in *.
  assert (E : value c1 * value c2 = value r + Wn n * (k + rest)) by (rewrite SP, Z.mul_add_distr_l; lia).
  pose proof (value_range r D) as VR. rewrite L in VR. pose proof (value_range c1 D1) as V1. pose proof (value_range c2 D2) as V2. pose proof (Wn_pos n) as WN.
  assert (LOW : canonical c1 -> canonical c2 -> Wn (f - 1) <= value c1 * value c2).
  { intros C1 C2. apply canonical_value in C1; [|exact D1|exact N1]. apply canonical_value in C2; [|exact D2|exact N2].
    replace (f - 1)%nat with ((length c1 - 1) + (length c2 - 1))%nat by (unfold f; lia). rewrite Wn_add. pose proof (Wn_pos (length c1 - 1)). pose proof (Wn_pos (length c2 - 1)). nia. }
  destruct (Nat.eq_dec n N) as [EN|NN].
  - rewrite (proj2 (Nat.eqb_eq n N) EN), andb_false_r. unfold pos_result; cbn [x_count x_chunks]. rewrite L. split; [split; [reflexivity|]; split; [lia|exact D]|].
    split; [|split; [|lia]].
    + rewrite E, <- EN, Z.mul_comm, Z.mod_add by lia. rewrite Z.mod_small; lia.
    + intros C1 C2 LT. specialize (LOW C1 C2). rewrite <- EN in LT. assert (k + rest = 0) by nia.
      destruct r as [|d r']; [left; reflexivity|]. apply canonical_value; [exact D|discriminate|]. rewrite L.
      assert (Wn (n - 1) <= Wn (f - 1)) by (apply Wn_le; unfold n; lia). nia.
  - assert (EF : n = f) by (unfold n in *; lia). assert (rest = 0). { unfold rest. replace (f - n)%nat with 0%nat by lia. reflexivity. }
    assert (KW : k < W). { assert (P : value c1 * value c2 < Wn (length c1) * Wn (length c2)) by (pose proof (Wn_pos (length c1)); nia). rewrite <- Wn_add in P.
      replace (length c1 + length c2)%nat with (S n) in P by (unfold f in *; lia). rewrite Wn_S in P. nia. }
    assert (PN : Wn (S n) <= Wn N) by (apply Wn_le; unfold n in *; lia). rewrite Wn_S in PN.
    rewrite (proj2 (Nat.eqb_neq n N) NN). cbn [negb]. rewrite andb_true_r. destruct (k =? 0) eqn:K0; cbn [negb]; unfold pos_result; cbn [x_count x_chunks].
    + rewrite L. split; [split; [reflexivity|]; split; [lia|exact D]|]. split; [|split; [|lia]].
      * rewrite Z.mod_small; nia.
      * intros C1 C2 LT. specialize (LOW C1 C2). destruct r as [|d r']; [left; reflexivity|]. apply canonical_value; [exact D|discriminate|]. rewrite L, EF. nia.
    + rewrite app_length, L. cbn [length]. split; [split; [lia|]; split; [lia|]|].
      * apply digits_app. split; [exact D|]. constructor; [apply u32_range|constructor].
      * split; [|split; [|lia]].
        -- rewrite value_app, L. cbn [value]. rewrite u32_id by lia. rewrite Z.mod_small; nia.
        -- intros _ _ _. right. rewrite last_last, u32_id by lia. lia.
Qed.

(* ---------- the operators ---------- *)
Lemma wf_sgn N x : x_wf N x -> (x_count x = 0 /\ x_chunks x = [] \/ x_count x <> 0 /\ x_chunks x <> [] /\ (0 < length (x_chunks x))%nat).
Proof.
  intros [A [B C]]. destruct (x_chunks x) as [|d l]; cbn [length] in *; [left; split; [lia|reflexivity]|right; split; [lia|]]. split; [discriminate|lia].
Qed.
Lemma x_value_abs N x : x_wf N x -> Z.abs (x_value x) = value (x_chunks x).
Proof.
  intros H. destruct (wf_sgn N x H) as [[A B]|[A _]]; unfold x_value; [rewrite B; cbn [value]; lia|].
  destruct H as [_ [_ D]]. pose proof (value_range _ D). rewrite Z.abs_mul. destruct (Z.sgn_spec (x_count x)) as [[_ ->]|[[? ?]|[_ ->]]]; lia.
Qed.
Lemma x_value_pos x : 0 < x_count x -> x_value x = value (x_chunks x).
Proof. intros H. unfold x_value. rewrite Z.sgn_pos by lia. lia. Qed.
Lemma x_value_neg x : x_count x < 0 -> x_value x = - value (x_chunks x).
Proof. intros H. unfold x_value. rewrite Z.sgn_neg by lia. lia. Qed.
Lemma x_value_bound N x : x_wf N x -> Z.abs (x_value x) < Wn N.
Proof. intros H. rewrite (x_value_abs N x H). destruct H as [_ [B D]]. pose proof (value_range _ D). pose proof (Wn_le _ _ B). lia. Qed.

Lemma same_spec N x y : x_wf N x -> x_wf N y -> (0 < x_count x /\ 0 < x_count y \/ x_count x < 0 /\ x_count y < 0) -> Z.abs (x_value x + x_value y) < Wn N ->
  let r := add_chunks N (x_chunks x) (x_chunks y) in let r := if x_count x <? 0 then x_neg r else r in
  x_wf N r /\ x_value r = x_value x + x_value y /\ (x_canonical x -> x_canonical y -> x_canonical r).
Proof.
  intros WX WY SG B. pose proof WX as [X1 [X2 X3]]. pose proof WY as [Y1 [Y2 Y3]]. cbv zeta.
  destruct (add_chunks_spec N _ _ X3 Y3 X2 Y2) as [A [V L]]. destruct (pos_wf _ _ A) as [A1 [A2 A3]].
  pose proof (value_range _ X3). pose proof (value_range _ Y3).
  assert (SB : value (x_chunks x) + value (x_chunks y) < Wn N).
  { destruct SG as [[S1 S2]|[S1 S2]]; [rewrite (x_value_pos x S1), (x_value_pos y S2) in B|rewrite (x_value_neg x S1), (x_value_neg y S2) in B]; lia. }
  rewrite Z.mod_small in V by lia.
  assert (C : x_canonical x -> x_canonical y -> x_canonical (add_chunks N (x_chunks x) (x_chunks y))).
  { intros CX CY. unfold x_canonical in *. destruct A as [_ [_ D]]. set (c := x_chunks (add_chunks N (x_chunks x) (x_chunks y))) in *.
    destruct (wf_sgn N x WX) as [[? _]|[_ [NX PX]]]; [lia|]. destruct (wf_sgn N y WY) as [[? _]|[_ [NY PY]]]; [lia|].
    apply canonical_value in CX; [|exact X3|exact NX]. apply canonical_value in CY; [|exact Y3|exact NY].
    (* length of the sum *)
    assert (LU : (length c <= S (Nat.max (length (x_chunks x)) (length (x_chunks y))))%nat /\ (length c = S (Nat.max (length (x_chunks x)) (length (x_chunks y))) -> last c 0 <> 0)).
    { unfold c. clear - X3 Y3. generalize (x_chunks x) (x_chunks y) X3 Y3. clear. intros c1 c2 D1 D2. unfold add_chunks.
      assert (G : forall c1 c2, digits c1 -> digits c2 -> (length c2 <= length c1)%nat ->
        let z := let '(r, temp) := add_loop c1 c2 0 in
          if negb (temp =? 0) && negb (length r =? N)%nat then mk_x (Z.of_nat (length r) + 1) (r ++ [u32 temp]) else mk_x (Z.of_nat (length r)) r in
        (length (x_chunks z) <= S (length c1))%nat /\ (length (x_chunks z) = S (length c1) -> last (x_chunks z) 0 <> 0)).
      { clear. intros c1 c2 D1 D2 L. pose proof (add_loop_spec c1 c2 0 D1 D2 L ltac:(lia)) as S. destruct (add_loop c1 c2 0) as [r k]. destruct S as [LR [D [K V]]]. cbv zeta.
        destruct (k =? 0) eqn:K0; cbn [negb andb x_chunks].
        - split; [lia|]. intros; lia.
        - destruct (length r =? N)%nat; cbn [negb x_chunks]; [split; [lia|intros; lia]|]. rewrite app_length. cbn [length]. split; [lia|]. intros _. rewrite last_last. rewrite u32_id by (Wlit; lia). lia. }
      destruct (Nat.ltb_spec (length c1) (length c2)) as [H|H].
      - rewrite Nat.max_r by lia. apply G; [exact D2|exact D1|lia].
      - rewrite Nat.max_l by lia. apply G; [exact D1|exact D2|lia]. }
    destruct LU as [LU1 LU2]. destruct (Nat.eq_dec (length c) (S (Nat.max (length (x_chunks x)) (length (x_chunks y))))) as [E|E]; [right; apply LU2; exact E|].
    apply canonical_value; [exact D|intros E0; rewrite E0 in L; cbn [length] in L; lia|]. rewrite V.
    assert (LE : (length c - 1 <= Nat.max (length (x_chunks x) - 1) (length (x_chunks y) - 1))%nat) by lia.
    apply Nat.max_le in LE as [LE|LE]; apply Wn_le in LE; lia. }
  destruct (x_count x <? 0) eqn:E.
  - split; [apply x_neg_wf; exact A1|]. split; [|exact C]. destruct SG as [[S1 S2]|[S1 S2]]; [lia|]. rewrite x_neg_value, A2, V, (x_value_neg x S1), (x_value_neg y S2). ring.
  - split; [exact A1|]. split; [|exact C]. destruct SG as [[S1 S2]|[S1 S2]]; [|lia]. rewrite A2, V, (x_value_pos x S1), (x_value_pos y S2). reflexivity.
Qed.
Definition size (x : xint) : nat := length (x_chunks x).
Lemma opposite_spec N x y : x_wf N x -> x_wf N y -> (0 < x_count x /\ x_count y < 0 \/ x_count x < 0 /\ 0 < x_count y) -> x_canonical x -> x_canonical y ->
  let r := dif_chunks (x_chunks x) (x_chunks y) in let r := if x_count x <? 0 then x_neg r else r in
  x_wf N r /\ x_value r = x_value x + x_value y /\
  (x_value x + x_value y = 0 \/ Wn (Nat.max (size x) (size y) - 2) <= Z.abs (x_value x + x_value y) -> x_canonical r).
Proof.
  intros WX WY SG CX CY. pose proof WX as [X1 [X2 X3]]. pose proof WY as [Y1 [Y2 Y3]]. cbv zeta.
  destruct (wf_sgn N x WX) as [[? _]|[_ [NX PX]]]; [lia|]. destruct (wf_sgn N y WY) as [[? _]|[_ [NY PY]]]; [lia|].
  destruct (dif_chunks_spec N _ _ X3 Y3 X2 Y2 PX PY (canonical_comparable _ _ X3 Y3 CX CY)) as [A [V [L C]]].
  assert (EQL : value (x_chunks x) = value (x_chunks y) -> length (x_chunks x) = length (x_chunks y)).
  { intros E. apply canonical_value in CX; [|exact X3|exact NX]. apply canonical_value in CY; [|exact Y3|exact NY]. pose proof (value_range _ X3). pose proof (value_range _ Y3).
    destruct (Nat.lt_trichotomy (length (x_chunks x)) (length (x_chunks y))) as [H1|[H1|H1]]; [|exact H1|].
    - pose proof (Wn_le (length (x_chunks x)) (length (x_chunks y) - 1) ltac:(lia)). lia.
    - pose proof (Wn_le (length (x_chunks y)) (length (x_chunks x) - 1) ltac:(lia)). lia. }
  assert (EQD : length (x_chunks x) = length (x_chunks y) \/ value (x_chunks x) <> value (x_chunks y)).
  { destruct (Z.eq_dec (value (x_chunks x)) (value (x_chunks y))); [left; auto|right; assumption]. }
  unfold size. destruct (x_count x <? 0) eqn:E.
  - destruct SG as [[S1 S2]|[S1 S2]]; [lia|]. rewrite (x_value_neg x S1), (x_value_pos y S2). split; [apply x_neg_wf; exact A|]. split; [rewrite x_neg_value, V; lia|].
    intros Q. apply C; [|exact EQD]. destruct Q as [Q|Q]; [left; lia|right]. replace (value (x_chunks x) - value (x_chunks y)) with (- (- value (x_chunks x) + value (x_chunks y))) by lia. rewrite Z.abs_opp. exact Q.
  - destruct SG as [[S1 S2]|[S1 S2]]; [|lia]. rewrite (x_value_pos x S1), (x_value_neg y S2). split; [exact A|]. split; [rewrite V; lia|].
    intros Q. apply C; [|exact EQD]. destruct Q as [Q|Q]; [left; lia|right]. exact Q.
Qed.
(* how small a sum may get without losing its canonical form *)
Definition not_tiny (x y : xint) (v : Z) : Prop :=
  v = 0 \/ W ^ (Z.of_nat (Nat.max (size x) (size y)) - 2) <= Z.abs v.
Lemma not_tiny_Wn x y v : not_tiny x y v -> (0 < size x)%nat -> v = 0 \/ Wn (Nat.max (size x) (size y) - 2) <= Z.abs v.
Proof.
  intros [H|H] P; [left; exact H|]. destruct (Z.eq_dec v 0) as [->|NZ]; [left; reflexivity|right]. unfold Wn.
  destruct (Nat.leb_spec 2 (Nat.max (size x) (size y))) as [G|G].
  - rewrite Nat2Z.inj_sub by lia. exact H.
  - replace (Nat.max (size x) (size y) - 2)%nat with 0%nat by lia. change (W ^ Z.of_nat 0) with 1. lia.
Qed.
Lemma x_add_spec N x y : x_wf N x -> x_wf N y -> x_canonical x -> x_canonical y -> Z.abs (x_value x + x_value y) < W ^ Z.of_nat N ->
  x_wf N (x_add N x y) /\ x_value (x_add N x y) = x_value x + x_value y /\
  (not_tiny x y (x_value x + x_value y) \/ 0 <= x_value x * x_value y -> x_canonical (x_add N x y)).
Proof.
  intros WX WY CX CY B. unfold x_add. destruct (x_count x =? 0) eqn:E1.
  { split; [exact WY|]. split; [unfold x_value at 2; rewrite (proj1 (Z.eqb_eq _ _) E1); cbn [Z.sgn]; lia|auto]. }
  destruct (x_count y =? 0) eqn:E2.
  { split; [exact WX|]. split; [unfold x_value at 3; rewrite (proj1 (Z.eqb_eq _ _) E2); cbn [Z.sgn]; lia|auto]. }
  assert (NZX : value (x_chunks x) <> 0). { intros H. apply value_zero in H; [|apply WX|exact CX]. destruct (wf_sgn N x WX) as [[? _]|[_ [? _]]]; [lia|congruence]. }
  assert (NZY : value (x_chunks y) <> 0). { intros H. apply value_zero in H; [|apply WY|exact CY]. destruct (wf_sgn N y WY) as [[? _]|[_ [? _]]]; [lia|congruence]. }
  pose proof (value_range _ (proj2 (proj2 WX))). pose proof (value_range _ (proj2 (proj2 WY))).
  destruct (wf_sgn N x WX) as [[? _]|[_ [NX PX]]]; [lia|].
  destruct (xorb (x_count x >? 0) (x_count y >? 0)) eqn:E.
  - assert (SG : 0 < x_count x /\ x_count y < 0 \/ x_count x < 0 /\ 0 < x_count y) by (destruct (x_count x >? 0) eqn:F1, (x_count y >? 0) eqn:F2; cbn [xorb] in E; try discriminate; lia).
    destruct (opposite_spec N x y WX WY SG CX CY) as [A [V C]]. cbv zeta in A, V, C. split; [exact A|]. split; [exact V|]. intros [T|T]; [apply C, not_tiny_Wn; [exact T|exact PX]|].
    exfalso. destruct SG as [[S1 S2]|[S1 S2]]; [rewrite (x_value_pos x S1), (x_value_neg y S2) in T|rewrite (x_value_neg x S1), (x_value_pos y S2) in T]; nia.
  - assert (SG : 0 < x_count x /\ 0 < x_count y \/ x_count x < 0 /\ x_count y < 0) by (destruct (x_count x >? 0) eqn:F1, (x_count y >? 0) eqn:F2; cbn [xorb] in E; try discriminate; lia).
    destruct (same_spec N x y WX WY SG B) as [A [V C]]. cbv zeta in A, V, C. split; [exact A|]. split; [exact V|]. intros _. apply C; assumption.
Qed.
Lemma x_sub_add N x y : x_sub N x y = x_add N x (x_neg y).
Proof.
  unfold x_sub, x_add. cbn [x_neg x_count x_chunks]. destruct (x_count x =? 0) eqn:E1; [reflexivity|].
  destruct (x_count y =? 0) eqn:E2; [rewrite (proj2 (Z.eqb_eq (- x_count y) 0)) by lia; reflexivity|]. rewrite (proj2 (Z.eqb_neq (- x_count y) 0)) by lia.
  replace (- x_count y >? 0) with (negb (x_count y >? 0)) by lia. destruct (x_count x >? 0), (x_count y >? 0); reflexivity.
Qed.
Lemma x_sub_spec N x y : x_wf N x -> x_wf N y -> x_canonical x -> x_canonical y -> Z.abs (x_value x - x_value y) < W ^ Z.of_nat N ->
  x_wf N (x_sub N x y) /\ x_value (x_sub N x y) = x_value x - x_value y /\
  (not_tiny x y (x_value x - x_value y) \/ x_value x * x_value y <= 0 -> x_canonical (x_sub N x y)).
Proof.
  intros WX WY CX CY B. rewrite x_sub_add. destruct (x_add_spec N x (x_neg y) WX (x_neg_wf _ _ WY) CX CY) as [A [V C]]; [rewrite x_neg_value; exact B|].
  rewrite x_neg_value in *. split; [exact A|]. split; [rewrite V; ring|]. intros [H|H]; apply C; [left; exact H|right; lia].
Qed.
Lemma x_mul_spec N x y : x_wf N x -> x_wf N y -> Z.of_nat N < 2 ^ 31 - 1 -> Z.abs (x_value x * x_value y) < W ^ Z.of_nat N ->
  x_wf N (x_mul N x y) /\ x_value (x_mul N x y) = x_value x * x_value y /\ (x_canonical x -> x_canonical y -> x_canonical (x_mul N x y)).
Proof.
  intros WX WY LN B. unfold x_mul.
  destruct (x_count x =? 0) eqn:E1; cbn [orb].
  { split; [split; [reflexivity|split; [cbn [x_chunks length]; lia|constructor]]|]. split; [unfold x_value; rewrite (proj1 (Z.eqb_eq _ _) E1); cbn [x_count Z.sgn]; lia|left; reflexivity]. }
  destruct (x_count y =? 0) eqn:E2.
  { split; [split; [reflexivity|split; [cbn [x_chunks length]; lia|constructor]]|]. split; [unfold x_value; rewrite (proj1 (Z.eqb_eq _ _) E2); cbn [x_count Z.sgn]; lia|left; reflexivity]. }
  destruct (wf_sgn N x WX) as [[? _]|[_ [NX PX]]]; [lia|]. destruct (wf_sgn N y WY) as [[? _]|[_ [NY PY]]]; [lia|].
  assert (AV := x_value_abs N x WX). assert (BV := x_value_abs N y WY). rewrite Z.abs_mul, AV, BV in B.
  pose proof WX as [X1 [X2 X3]]. pose proof WY as [Y1 [Y2 Y3]]. destruct (mul_chunks_spec N _ _ X3 Y3 NX NY) as [A [V [C _]]]; [change W with (2 ^ 32) in *; lia|].
  destruct (pos_wf _ _ A) as [A1 [A2 A3]]. pose proof (value_range _ X3). pose proof (value_range _ Y3). rewrite Z.mod_small in V by (split; [nia|exact B]).
  destruct (xorb (x_count x >? 0) (x_count y >? 0)) eqn:E.
  - assert (SG : 0 < x_count x /\ x_count y < 0 \/ x_count x < 0 /\ 0 < x_count y) by (destruct (x_count x >? 0) eqn:F1, (x_count y >? 0) eqn:F2; cbn [xorb] in E; try discriminate; lia).
    split; [apply x_neg_wf; exact A1|]. split; [|intros; apply C; assumption]. rewrite x_neg_value, A2, V.
    destruct SG as [[S1 S2]|[S1 S2]]; [rewrite (x_value_pos x S1), (x_value_neg y S2)|rewrite (x_value_neg x S1), (x_value_pos y S2)]; ring.
  - assert (SG : 0 < x_count x /\ 0 < x_count y \/ x_count x < 0 /\ x_count y < 0) by (destruct (x_count x >? 0) eqn:F1, (x_count y >? 0) eqn:F2; cbn [xorb] in E; try discriminate; lia).
    split; [exact A1|]. split; [|intros; apply C; assumption]. rewrite A2, V.
    destruct SG as [[S1 S2]|[S1 S2]]; [rewrite (x_value_pos x S1), (x_value_pos y S2)|rewrite (x_value_neg x S1), (x_value_neg y S2)]; ring.
Qed.

(* ---------- constructors ---------- *)
Lemma x_of_int32_ok N z : (0 < N)%nat -> is_int z -> z <> INT_MIN -> exists x, x_of_int32 z = Ok x /\ x_wf N x /\ x_canonical x /\ x_value x = z.
Proof.
  intros LN R NM. unfold x_of_int32. unfold is_int, INT_MIN, INT_MAX in *.
  destruct (z >? 0) eqn:E; [|destruct (z <? 0) eqn:E2].
  - eexists. split; [reflexivity|]. rewrite u32_id by (Wlit; lia). split; [|split].
    + split; [reflexivity|]. split; [cbn; lia|]. constructor; [Wlit; lia|constructor].
    + right. cbn [x_chunks last]. lia.
    + unfold x_value; cbn [x_count x_chunks value Z.sgn]. lia.
  - rewrite chk_ok by (unfold is_int, INT_MIN, INT_MAX; lia). cbn [obind]. eexists. split; [reflexivity|]. rewrite u32_id by (Wlit; lia). split; [|split].
    + split; [reflexivity|]. split; [cbn; lia|]. constructor; [Wlit; lia|constructor].
    + right. cbn [x_chunks last]. lia.
    + unfold x_value; cbn [x_count x_chunks value Z.sgn]. lia.
  - eexists. split; [reflexivity|]. split; [|split].
    + split; [reflexivity|]. split; [cbn; lia|]. constructor.
    + left. reflexivity.
    + unfold x_value; cbn [x_count x_chunks value Z.sgn]. lia.
Qed.
Lemma two_chunks m : 0 < m < W * W -> exists c0 c1, u32 m = c0 /\ u32 (Z.shiftr m 32) = c1 /\ 0 <= c0 < W /\ 0 <= c1 < W /\ m = c0 + W * c1.
Proof.
  intros H. eexists _, _. split; [reflexivity|]. split; [reflexivity|]. split; [apply u32_range|]. split; [apply u32_range|]. rewrite shr32.
  rewrite (u32_id (m / W)). { apply split32. } split; [apply Z.div_pos; [lia|reflexivity]|apply Z.div_lt_upper_bound; [reflexivity|lia]].
Qed.
Lemma x_of_int64_ok N z : (2 <= N)%nat -> is_int64 z -> z <> - 2 ^ 63 -> exists x, x_of_int64 N z = Ok x /\ x_wf N x /\ x_canonical x /\ x_value x = z.
Proof.
  intros LN R NM. unfold x_of_int64. unfold is_int64 in *. change (2 ^ 63) with 9223372036854775808 in *.
  destruct (z =? 0) eqn:E0. { exists (mk_x 0 []). split; [reflexivity|]. split; [split; [reflexivity|]; split; [cbn; lia|constructor]|]. split; [left; reflexivity|]. unfold x_value; cbn. lia. }
  rewrite (proj2 (Nat.ltb_ge N 2) LN).
  assert (G : forall m s, 0 < m < W * W -> (s = 1 \/ s = -1) -> exists x, (if negb (u32 (Z.shiftr m 32) =? 0) then Ok (mk_x (s * 2) [u32 m; u32 (Z.shiftr m 32)]) else Ok (mk_x (s * 1) [u32 m])) = Ok x /\ x_wf N x /\ x_canonical x /\ x_value x = s * m).
  { intros m s M SS. assert (SV : Z.sgn (s * 1) = s /\ Z.sgn (s * 2) = s) by (destruct SS; subst; split; reflexivity). destruct SV as [SV1 SV2]. destruct (two_chunks m M) as [c0 [c1 [-> [-> [R0 [R1 E]]]]]]. destruct (c1 =? 0) eqn:Z1; cbn [negb]; (eexists; split; [reflexivity|]).
    - split; [|split].
      + split; [destruct SS as [->| ->]; reflexivity|]. split; [cbn; lia|]. constructor; [exact R0|constructor].
      + right. cbn [x_chunks last]. lia.
      + unfold x_value; cbn [x_count x_chunks value]. rewrite ?SV1, ?SV2, E. first [replace c1 with 0 by lia; ring|ring].
    - split; [|split].
      + split; [destruct SS as [->| ->]; reflexivity|]. split; [cbn; lia|]. constructor; [exact R0|]. constructor; [exact R1|constructor].
      + right. cbn [x_chunks last]. lia.
      + unfold x_value; cbn [x_count x_chunks value]. rewrite ?SV1, ?SV2, E. first [replace c1 with 0 by lia; ring|ring]. }
  destruct (z >? 0) eqn:E1.
  - destruct (G z 1 ltac:(Wlit; lia) ltac:(auto)) as [x [A B]]. exists x. rewrite Z.mul_1_l in B. split; [exact A|exact B].
  - rewrite chk64_ok by lia. cbn [obind]. destruct (G (- z) (-1) ltac:(Wlit; lia) ltac:(auto)) as [x [A B]]. exists x. replace (-1 * - z) with z in B by ring. split; [exact A|exact B].
Qed.
Lemma x_of_vector_spec N chunks plus : digits chunks ->
  let x := x_of_vector N chunks plus in x_wf N x /\ x_value x = (if plus then 1 else -1) * (value (rev chunks) mod W ^ Z.of_nat N).
Proof.
  intros D. cbv zeta. unfold x_of_vector. set (c := firstn _ _). assert (DR := proj2 (digits_rev chunks) D).
  assert (DC : digits c). { unfold c. rewrite <- (firstn_skipn (Nat.min N (length chunks)) (rev chunks)) in DR. apply digits_app in DR. tauto. }
  assert (LC : length c = Nat.min N (length chunks)) by (unfold c; rewrite firstn_length, rev_length; lia).
  split.
  - split; [destruct plus; cbn [x_count x_chunks]; lia|]. split; [cbn [x_chunks]; lia|exact DC].
  - assert (V : value c = value (rev chunks) mod Wn N).
    { rewrite <- (firstn_skipn (Nat.min N (length chunks)) (rev chunks)). fold c. rewrite value_app. pose proof (value_range c DC) as VR. rewrite LC in VR |- *.
      destruct (Nat.leb_spec N (length chunks)) as [H|H].
      - replace (Nat.min N (length chunks)) with N in * by lia. rewrite Z.mul_comm, Z.mod_add by (pose proof (Wn_pos N); lia). rewrite Z.mod_small; lia.
      - replace (Nat.min N (length chunks)) with (length chunks) in * by lia. rewrite skipn_all2 by (rewrite rev_length; lia). cbn [value]. rewrite Z.mul_0_r, Z.add_0_r. pose proof (Wn_le (length chunks) N ltac:(lia)). rewrite Z.mod_small; lia. }
    fold (Wn N). rewrite <- V. unfold x_value; cbn [x_count x_chunks]. destruct c as [|d l] eqn:E; [destruct plus; reflexivity|]. rewrite <- E in *.
    assert (0 < Z.of_nat (length c)) by (rewrite E; cbn [length]; lia). destruct plus; [rewrite Z.sgn_pos by lia|rewrite Z.sgn_neg by lia]; reflexivity.
Qed.

(* ---------- comparisons ---------- *)
Lemma chunks_eqb_eq l : forall m, chunks_eqb l m = true <-> l = m.
Proof.
  induction l as [|a l IH]; intros [|b m]; cbn [chunks_eqb]; try (split; [discriminate|discriminate]); [split; reflexivity|].
  rewrite andb_true_iff, IH. split; [intros [H1 H2]; f_equal; [lia|exact H2]|intros H; injection H; intros; subst; split; [lia|reflexivity]].
Qed.
Lemma value_inj l : forall m, digits l -> digits m -> length l = length m -> value l = value m -> l = m.
Proof.
  induction l as [|a l IH]; intros [|b m] D1 D2 L V; cbn [length] in L; try lia; [reflexivity|]. inversion D1; subst. inversion D2; subst. cbn [value] in V.
  assert (a = b) by (Wlit; lia). subst b. f_equal. apply IH; try assumption; [lia|]. Wlit. lia.
Qed.
Lemma canonical_size_lt c1 c2 : digits c1 -> digits c2 -> canonical c2 -> (length c1 < length c2)%nat -> value c1 < value c2.
Proof.
  intros D1 D2 C L. assert (N : c2 <> []) by (intros ->; cbn [length] in L; lia). apply canonical_value in C; [|exact D2|exact N].
  pose proof (value_range c1 D1). pose proof (Wn_le (length c1) (length c2 - 1) ltac:(lia)). lia.
Qed.
Lemma count_value N x y : x_wf N x -> x_wf N y -> x_canonical x -> x_canonical y -> x_count x < x_count y -> x_value x < x_value y.
Proof.
  intros WX WY CX CY L. pose proof WX as [X1 [X2 X3]]. pose proof WY as [Y1 [Y2 Y3]].
  assert (NX : x_count x <> 0 -> value (x_chunks x) <> 0). { intros Q H. apply value_zero in H; [|exact X3|exact CX]. rewrite H in X1. cbn [length] in X1. lia. }
  assert (NY : x_count y <> 0 -> value (x_chunks y) <> 0). { intros Q H. apply value_zero in H; [|exact Y3|exact CY]. rewrite H in Y1. cbn [length] in Y1. lia. }
  pose proof (value_range _ X3). pose proof (value_range _ Y3).
  destruct (Z.lt_trichotomy (x_count x) 0) as [S1|[S1|S1]]; destruct (Z.lt_trichotomy (x_count y) 0) as [S2|[S2|S2]]; try lia.
  - rewrite (x_value_neg x S1), (x_value_neg y S2). assert (value (x_chunks y) < value (x_chunks x)) by (apply canonical_size_lt; try assumption; lia). lia.
  - rewrite (x_value_neg x S1). unfold x_value. rewrite S2. cbn [Z.sgn]. specialize (NX ltac:(lia)). lia.
  - rewrite (x_value_neg x S1), (x_value_pos y S2). specialize (NX ltac:(lia)). lia.
  - rewrite (x_value_pos y S2). unfold x_value. rewrite S1. cbn [Z.sgn]. specialize (NY ltac:(lia)). lia.
  - rewrite (x_value_pos x S1), (x_value_pos y S2). apply canonical_size_lt; try assumption; lia.
Qed.
Lemma less_loop_spec neg l : forall m, digits l -> digits m -> length l = length m ->
  (less_loop neg l m = true <-> if neg then value (rev m) < value (rev l) else value (rev l) < value (rev m)).
Proof.
  induction l as [|a l IH]; intros [|b m] D1 D2 L; cbn [length] in L; try lia; cbn [less_loop].
  - split; [discriminate|]. destruct neg; cbn [rev value]; lia.
  - inversion D1 as [|x y Ha D1']; subst. inversion D2 as [|x y Hb D2']; subst. cbn [rev]. rewrite !value_app, !rev_length. cbn [value].
    assert (LL : length l = length m) by lia. pose proof (value_range (rev l) (proj2 (digits_rev _) D1')) as V1. pose proof (value_range (rev m) (proj2 (digits_rev _) D2')) as V2. rewrite !rev_length in V1, V2. rewrite LL in V1 |- *. pose proof (Wn_pos (length m)).
    destruct (a =? b) eqn:E; cbn [negb].
    + assert (a = b) by lia. subst b. rewrite (IH m D1' D2' LL). destruct neg; nia.
    + destruct neg, (a <? b) eqn:E2; cbn [xorb]; split; intros; try reflexivity; try discriminate; nia.
Qed.
Lemma x_ltb_spec N x y : x_wf N x -> x_wf N y -> x_canonical x -> x_canonical y -> (x_ltb x y = true <-> x_value x < x_value y).
Proof.
  intros WX WY CX CY. unfold x_ltb. destruct (x_count x =? x_count y) eqn:E; cbn [negb].
  - assert (EC : x_count x = x_count y) by lia. pose proof WX as [X1 [X2 X3]]. pose proof WY as [Y1 [Y2 Y3]].
    rewrite less_loop_spec; [|apply digits_rev; exact X3|apply digits_rev; exact Y3|rewrite !rev_length; lia]. rewrite !rev_involutive.
    destruct (x_count x <? 0) eqn:S; [rewrite (x_value_neg x), (x_value_neg y) by lia; lia|].
    destruct (Z.eq_dec (x_count x) 0) as [Z0|Z0].
    + destruct (wf_sgn N x WX) as [[_ ->]|[? _]]; [|lia]. destruct (wf_sgn N y WY) as [[_ ->]|[? _]]; [|lia]. unfold x_value. rewrite <- EC, Z0. cbn [value Z.sgn]. lia.
    + rewrite (x_value_pos x), (x_value_pos y) by lia. reflexivity.
  - split; intros H.
    + apply (count_value N); try assumption. lia.
    + apply Z.ltb_lt. destruct (Z.lt_total (x_count x) (x_count y)) as [L|[L|L]]; [exact L|lia|]. pose proof (count_value N y x WY WX CY CX L). lia.
Qed.
Lemma x_eqb_spec N x y : x_wf N x -> x_wf N y -> x_canonical x -> x_canonical y -> (x_eqb x y = true <-> x_value x = x_value y).
Proof.
  intros WX WY CX CY. unfold x_eqb. destruct (x_count x =? x_count y) eqn:E; cbn [negb].
  - assert (EC : x_count x = x_count y) by lia. pose proof WX as [X1 [X2 X3]]. pose proof WY as [Y1 [Y2 Y3]]. rewrite chunks_eqb_eq. split.
    + intros H. unfold x_value. rewrite H, EC. reflexivity.
    + intros H. apply value_inj; try assumption; [lia|]. rewrite <- (x_value_abs N x WX), <- (x_value_abs N y WY), H. reflexivity.
  - split; [discriminate|]. intros H. exfalso. destruct (Z.lt_total (x_count x) (x_count y)) as [L|[L|L]]; [|lia|].
    + pose proof (count_value N x y WX WY CX CY L). lia.
    + pose proof (count_value N y x WY WX CY CX L). lia.
Qed.
Lemma x_sign_spec N x : x_wf N x -> x_canonical x -> (x_is_pos x = true <-> 0 < x_value x) /\ (x_is_neg x = true <-> x_value x < 0) /\ (x_is_zero x = true <-> x_value x = 0).
Proof.
  intros WX CX. set (o := mk_x 0 []). assert (WO : x_wf N o) by (split; [reflexivity|]; split; [cbn; lia|constructor]). assert (CO : x_canonical o) by (left; reflexivity).
  assert (VO : x_value o = 0) by reflexivity. unfold x_is_pos, x_is_neg, x_is_zero.
  destruct (Z.lt_total (x_count x) 0) as [L|[L|L]].
  - pose proof (count_value N x o WX WO CX CO L). lia.
  - unfold x_value. rewrite L. cbn [Z.sgn]. lia.
  - pose proof (count_value N o x WO WX CO CX L). lia.
Qed.

(* ---------- expressions ---------- *)
Lemma no_loss_not_tiny x y N : x_wf N x -> x_wf N y -> x_canonical x -> x_canonical y -> no_loss (x_value x) (x_value y) (x_value x + x_value y) ->
  not_tiny x y (x_value x + x_value y) \/ 0 <= x_value x * x_value y.
Proof.
  intros WX WY CX CY [H|[H|[H|H]]]; [left; left; exact H|right; exact H| |].
  - (* both have at most two chunks *)
    assert (G : forall z, x_wf N z -> x_canonical z -> Z.abs (x_value z) < W * W -> (size z <= 2)%nat).
    { intros z WZ CZ B. rewrite (x_value_abs N z WZ) in B. destruct (Nat.leb_spec (size z) 2) as [L|L]; [exact L|exfalso]. unfold size in L. destruct WZ as [_ [_ D]].
      apply canonical_value in CZ; [|exact D|intros E; rewrite E in L; cbn [length] in L; lia]. pose proof (Wn_le 2 (length (x_chunks z) - 1) ltac:(lia)) as Q. change (Wn 2) with (W * W) in Q. lia. }
    destruct (Z.eq_dec (x_value x + x_value y) 0) as [E|E]; [left; left; exact E|]. left. right. pose proof (G x WX CX ltac:(lia)). pose proof (G y WY CY ltac:(lia)).
    assert (P : W ^ (Z.of_nat (Nat.max (size x) (size y)) - 2) <= 1). { destruct (Z.eq_dec (Z.of_nat (Nat.max (size x) (size y)) - 2) 0) as [E0|E0]; [rewrite E0; reflexivity|]. rewrite Z.pow_neg_r by lia. lia. }
    lia.
  - (* a loss of at most one chunk *)
    assert (G : forall z, x_wf N z -> x_canonical z -> (0 < size z)%nat -> Wn (size z - 1) <= Z.abs (x_value z)).
    { intros z WZ CZ P. rewrite (x_value_abs N z WZ). destruct WZ as [_ [_ D]]. apply canonical_value; [exact D|intros E; unfold size in P; rewrite E in P; cbn [length] in P; lia|exact CZ]. }
    assert (K : forall k, (k = size x \/ k = size y) -> (2 <= k)%nat -> W ^ (Z.of_nat k - 2) <= Z.abs (x_value x + x_value y)).
    { intros k K P. assert (Q : Wn (k - 1) <= W * Z.abs (x_value x + x_value y)). { destruct K as [->| ->]; [pose proof (G x WX CX ltac:(lia))|pose proof (G y WY CY ltac:(lia))]; lia. }
      replace (k - 1)%nat with (S (k - 2)) in Q by lia. rewrite Wn_S in Q. unfold Wn in Q. rewrite Nat2Z.inj_sub in Q by lia. change (Z.of_nat 2) with 2 in Q. pose proof W_pos. nia. }
    destruct (Z.eq_dec (x_value x + x_value y) 0) as [E|E]; [left; left; exact E|]. left. right.
    destruct (Nat.leb_spec 2 (Nat.max (size x) (size y))) as [L|L].
    + apply K; [|exact L]. lia.
    + rewrite Z.pow_neg_r by lia. lia.
Qed.
Lemma run_spec N e : (2 <= N)%nat -> Z.of_nat N < 2 ^ 31 - 1 -> fits N e -> exists x, run N e = Ok x /\ x_wf N x /\ x_canonical x /\ x_value x = meaning e.
Proof.
  intros L1 L2. induction e as [z|z|e IH|e1 IH1 e2 IH2|e1 IH1 e2 IH2|e1 IH1 e2 IH2]; cbn [fits run meaning].
  - intros [R NM]. apply x_of_int32_ok; [lia|exact R|exact NM].
  - intros [R NM]. apply x_of_int64_ok; assumption.
  - intros F. destruct (IH F) as [x [E [A [B C]]]]. rewrite E. cbn [obind]. eexists. split; [reflexivity|]. split; [apply x_neg_wf; exact A|]. split; [exact B|]. rewrite x_neg_value, C. reflexivity.
  - intros [F1 [F2 [B NL]]]. destruct (IH1 F1) as [x [E1 [A1 [B1 C1]]]]. destruct (IH2 F2) as [y [E2 [A2 [B2 C2]]]]. rewrite E1, E2. cbn [obind]. eexists. split; [reflexivity|].
    rewrite <- C1, <- C2 in B, NL |- *. destruct (x_add_spec N x y A1 A2 B1 B2 B) as [P [Q R]]. split; [exact P|]. split; [apply R, (no_loss_not_tiny x y N); assumption|exact Q].
  - intros [F1 [F2 [B NL]]]. destruct (IH1 F1) as [x [E1 [A1 [B1 C1]]]]. destruct (IH2 F2) as [y [E2 [A2 [B2 C2]]]]. rewrite E1, E2. cbn [obind]. eexists. split; [reflexivity|].
    rewrite <- C1, <- C2 in B, NL |- *. rewrite x_sub_add. replace (x_value x - x_value y) with (x_value x + x_value (x_neg y)) in * by (rewrite x_neg_value; ring).
    destruct (x_add_spec N x (x_neg y) A1 (x_neg_wf _ _ A2) B1 B2 B) as [P [Q R]]. split; [exact P|]. split; [apply R, (no_loss_not_tiny x (x_neg y) N); try assumption; [apply x_neg_wf; exact A2|rewrite x_neg_value in *; exact NL]|exact Q].
  - intros [F1 [F2 B]]. destruct (IH1 F1) as [x [E1 [A1 [B1 C1]]]]. destruct (IH2 F2) as [y [E2 [A2 [B2 C2]]]]. rewrite E1, E2. cbn [obind]. eexists. split; [reflexivity|].
    rewrite <- C1, <- C2 in B |- *. destruct (x_mul_spec N x y A1 A2 L2 B) as [P [Q R]]. split; [exact P|]. split; [apply R; assumption|exact Q].
Qed.
