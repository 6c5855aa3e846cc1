(* Error bounds of robust_sqrt_expr and robust_fpt. *)
From Coq Require Import Reals ZArith Lra Lia List.
From Verif Require Import Base RobustSpec RobustModel.
Open Scope R_scope.

(* ---------- signs ---------- *)
Lemma is_pos_spec x : is_pos x = true <-> 0 < x.
Proof. unfold is_pos. destruct (Rlt_dec 0 x); split; intros; try assumption; try reflexivity; try discriminate; contradiction. Qed.
Lemma is_neg_spec x : is_neg x = true <-> x < 0.
Proof. unfold is_neg. destruct (Rlt_dec x 0); split; intros; try assumption; try reflexivity; try discriminate; contradiction. Qed.
Lemma is_neg_false x : is_neg x = false <-> 0 <= x.
Proof. unfold is_neg. destruct (Rlt_dec x 0); split; intros; try lra; try reflexivity; discriminate. Qed.
Lemma same_side_spec a b : same_side a b = true <-> (0 <= a /\ 0 <= b) \/ (a <= 0 /\ b <= 0).
Proof.
  unfold same_side, is_neg, is_pos.
  destruct (Rlt_dec a 0), (Rlt_dec b 0), (Rlt_dec 0 a), (Rlt_dec 0 b); cbn [negb andb orb]; split; intros; try lra; try reflexivity; discriminate.
Qed.

Section Bounds.
Variable eps : R.
Hypothesis EPS : 0 <= eps <= / 1000.
Variable rnd : R -> R.
Hypothesis RND : rounds eps rnd.
Variable cv : Z -> R.
Hypothesis CV : converts eps cv.

(* x is y up to the relative error k * eps *)
Definition approx (k x y : R) : Prop := exists d, x = y * (1 + d) /\ Rabs d <= k * eps.

Lemma abs_bound d k : Rabs d <= k <-> - k <= d <= k.
Proof. unfold Rabs. destruct (Rcase_abs d); lra. Qed.
Lemma approx_of x y k : 0 <= k -> Rabs (x - y) <= k * eps * Rabs y -> approx k x y.
Proof.
  intros K H. destruct (Req_dec y 0) as [->|N].
  - exists 0. rewrite Rabs_R0 in *. split; [|nra]. rewrite Rmult_0_r in H. pose proof (Rabs_pos (x - 0)).
    assert (E : Rabs (x - 0) = 0) by lra. destruct (Req_dec (x - 0) 0) as [E0|E0]; [lra|apply Rabs_no_R0 in E0; contradiction].
  - exists ((x - y) / y). split; [field; exact N|]. unfold Rdiv. rewrite Rabs_mult, (Rabs_inv y).
    pose proof (Rabs_pos_lt y N). apply (Rmult_le_reg_r (Rabs y)); [assumption|]. rewrite Rmult_assoc, Rinv_l by lra. lra.
Qed.
Lemma approx_within x y k : approx k x y -> within_eps k eps x y.
Proof.
  intros [d [-> H]]. unfold within_eps. replace (y * (1 + d) - y) with (y * d) by ring. rewrite Rabs_mult.
  pose proof (Rabs_pos y). nra.
Qed.
Lemma approx_weaken k k' x y : k <= k' -> approx k x y -> approx k' x y.
Proof. intros L [d [E H]]. exists d. split; [exact E|]. assert (k * eps <= k' * eps) by (apply Rmult_le_compat_r; lra). lra. Qed.
Lemma approx_sign k x y : 0 <= k <= 100 -> approx k x y -> same_sign x y.
Proof.
  intros K [d [-> H]]. apply abs_bound in H. assert (P : 0 < 1 + d) by nra. unfold same_sign.
  split; split; intros Q; nra.
Qed.
Lemma approx_zero k x : 0 <= k -> approx k x 0 -> x = 0.
Proof. intros K [d [-> H]]. ring. Qed.

Lemma ap_rnd k k' x y : 0 <= k <= 100 -> k + 1 + k / 1000 <= k' -> approx k x y -> approx k' (rnd x) y.
Proof.
  intros K L [d [-> H]].
  assert (R1 : approx 1 (rnd (y * (1 + d))) (y * (1 + d))) by (apply approx_of; [lra|]; rewrite Rmult_1_l; apply RND).
  destruct R1 as [e [E He]]. rewrite E. exists (d + e + d * e). split; [ring|].
  apply abs_bound in H. apply abs_bound in He. apply abs_bound.
  assert (B : - (k * eps / 1000) <= d * e <= k * eps / 1000) by (split; nra).
  assert (T : (k + 1 + k / 1000) * eps <= k' * eps) by (apply Rmult_le_compat_r; lra). lra.
Qed.
Lemma ap_mul k1 k2 k' x1 y1 x2 y2 : 0 <= k1 <= 100 -> 0 <= k2 <= 100 -> k1 + k2 + k1 * k2 / 1000 <= k' ->
  approx k1 x1 y1 -> approx k2 x2 y2 -> approx k' (x1 * x2) (y1 * y2).
Proof.
  intros K1 K2 L [d [-> H]] [e [-> He]]. exists (d + e + d * e). split; [ring|].
  apply abs_bound in H. apply abs_bound in He. apply abs_bound.
  assert (Q : 0 <= k1 * k2) by nra.
  assert (B0 : Rabs (d * e) <= (k1 * eps) * (k2 * eps)).
  { rewrite Rabs_mult. apply Rmult_le_compat; try apply Rabs_pos; apply abs_bound; assumption. }
  assert (B1 : (k1 * eps) * (k2 * eps) <= k1 * k2 / 1000 * eps).
  { replace ((k1 * eps) * (k2 * eps)) with (k1 * k2 * eps * eps) by ring.
    replace (k1 * k2 / 1000 * eps) with (k1 * k2 * eps * / 1000) by field.
    apply Rmult_le_compat_l; [nra|lra]. }
  assert (T : (k1 + k2 + k1 * k2 / 1000) * eps <= k' * eps) by (apply Rmult_le_compat_r; lra).
  apply abs_bound in B0. lra.
Qed.
Lemma ap_div k1 k2 k' x1 y1 x2 y2 : 0 <= k1 <= 100 -> 0 <= k2 <= 100 -> k1 + k2 <= k' * (1 - k2 / 1000) ->
  y2 <> 0 -> approx k1 x1 y1 -> approx k2 x2 y2 -> approx k' (x1 / x2) (y1 / y2).
Proof.
  intros K1 K2 L N [d [-> H]] [e [-> He]]. apply abs_bound in H. apply abs_bound in He.
  assert (P : 1 - k2 / 1000 <= 1 + e) by nra. assert (P0 : 0 < 1 - k2 / 1000) by lra.
  assert (K' : 0 <= k') by nra.
  exists ((d - e) / (1 + e)). split; [field; split; [lra|exact N]|].
  unfold Rdiv. rewrite Rabs_mult, (Rabs_inv (1 + e)), (Rabs_pos_eq (1 + e)) by lra.
  apply (Rmult_le_reg_r (1 + e)); [lra|]. rewrite Rmult_assoc, Rinv_l by lra. rewrite Rmult_1_r.
  assert (B : Rabs (d - e) <= (k1 + k2) * eps) by (apply abs_bound; lra).
  assert (T1 : (k1 + k2) * eps <= k' * (1 - k2 / 1000) * eps) by (apply Rmult_le_compat_r; lra).
  assert (T2 : k' * eps * (1 - k2 / 1000) <= k' * eps * (1 + e)) by (apply Rmult_le_compat_l; [nra|lra]). lra.
Qed.
Lemma ap_add k x1 y1 x2 y2 : 0 <= k -> (0 <= y1 /\ 0 <= y2) \/ (y1 <= 0 /\ y2 <= 0) ->
  approx k x1 y1 -> approx k x2 y2 -> approx k (x1 + x2) (y1 + y2).
Proof.
  intros K S H1 H2. apply approx_within in H1. apply approx_within in H2. unfold within_eps in *. apply approx_of; [exact K|].
  replace (x1 + x2 - (y1 + y2)) with ((x1 - y1) + (x2 - y2)) by ring.
  eapply Rle_trans; [apply Rabs_triang|].
  assert (E : Rabs (y1 + y2) = Rabs y1 + Rabs y2).
  { destruct S as [[A B]|[A B]]; [rewrite !Rabs_pos_eq by lra; reflexivity|].
    rewrite !Rabs_left1 by lra. ring. }
  rewrite E. lra.
Qed.
Lemma ap_neg k x y : approx k x y -> approx k (- x) (- y).
Proof. intros [d [-> H]]. exists d. split; [ring|exact H]. Qed.
Lemma ap_sqrt x y : 0 <= y -> approx 1 x y -> 0 <= x /\ approx (501 / 1000) (sqrt x) (sqrt y).
Proof.
  intros Y [d [-> H]]. apply abs_bound in H. split; [nra|].
  exists (sqrt (1 + d) - 1). rewrite sqrt_mult by lra. split; [ring|].
  assert (L : 998 / 1000 <= sqrt (1 + d)).
  { apply Rsqr_incr_0_var; [|apply sqrt_pos]. rewrite Rsqr_sqrt by lra. unfold Rsqr. lra. }
  assert (E : (sqrt (1 + d) - 1) * (sqrt (1 + d) + 1) = d).
  { replace ((sqrt (1 + d) - 1) * (sqrt (1 + d) + 1)) with (sqrt (1 + d) * sqrt (1 + d) - 1) by ring. rewrite sqrt_sqrt by lra. ring. }
  set (q := sqrt (1 + d)) in *. apply abs_bound. split; nra.
Qed.
Lemma ap_cv z : approx 1 (cv z) (IZR z).
Proof. apply approx_of; [lra|]. rewrite Rmult_1_l. apply CV. Qed.

(* ---------- the evaluations ---------- *)
Definition term (m : mem) (p : ptr) (i : nat) : R := IZR (rdA m p i) * sqrt (IZR (rdB m p i)).
Lemma rd_shiftA m p k i : rdA m (shift p k) i = rdA m p (k + i).
Proof. unfold rdA, shift. cbn [p_temp p_off]. rewrite Nat.add_assoc. reflexivity. Qed.
Lemma rd_shiftB m p k i : rdB m (shift p k) i = rdB m p (k + i).
Proof. unfold rdB, shift. cbn [p_temp p_off]. rewrite Nat.add_assoc. reflexivity. Qed.
Lemma term_shift m p k i : term m (shift p k) i = term m p (k + i).
Proof. unfold term. rewrite rd_shiftA, rd_shiftB. reflexivity. Qed.

Lemma eval1_ok m p : (0 <= rdB m p 0)%Z -> exists v, eval1 rnd cv m p = Some v /\ approx (351 / 100) v (term m p 0).
Proof.
  intros B. unfold eval1. pose proof (IZR_le _ _ B) as B'.
  destruct (ap_sqrt _ _ B' (ap_cv (rdB m p 0))) as [N S].
  unfold f_sqrt. rewrite (proj2 (is_neg_false _) N). cbn [bind]. eexists. split; [reflexivity|].
  unfold term. apply (ap_rnd (2504 / 1000)); [lra|lra|].
  apply (ap_mul 1 (1502 / 1000)); [lra|lra|lra|apply ap_cv|].
  apply (ap_rnd (501 / 1000)); [lra|lra|exact S].
Qed.

(* the step common to eval2, eval3 and eval4 *)
Lemma combine_ok ka kb kn a b ea eb n : 0 <= ka <= 10 -> 0 <= kb <= ka -> 0 <= kn <= 20 ->
  approx ka a ea -> approx kb b eb ->
  (same_side a b = true -> approx (ka + 1 + ka / 1000) (rnd (a + b)) (ea + eb)) /\
  (same_side a b = false -> approx kn n (ea * ea - eb * eb) ->
     exists v, f_div rnd n (rnd (a - b)) = Some v /\
       forall k, (kn + (ka + 1 + ka / 1000)) <= (k - 1) / (1 + / 1000) * (1 - (ka + 1 + ka / 1000) / 1000) -> approx k v (ea + eb)).
Proof.
  intros Ka Kb Kn Ha Hb. pose proof (approx_weaken kb ka b eb (proj2 Kb) Hb) as Hb'.
  destruct (approx_sign ka a ea ltac:(lra) Ha) as [A1 A2]. destruct (approx_sign ka b eb ltac:(lra) Hb') as [B1 B2]. split.
  - intros S. apply same_side_spec in S. apply (ap_rnd ka); [lra|lra|]. apply ap_add; [lra| |exact Ha|exact Hb'].
    destruct S as [[S1 S2]|[S1 S2]]; [left|right]; split; apply Rnot_lt_le; intros Q.
    + apply A2 in Q. lra.
    + apply B2 in Q. lra.
    + apply A1 in Q. lra.
    + apply B1 in Q. lra.
  - intros S Hn.
    assert (O : (0 < ea /\ eb < 0) \/ (ea < 0 /\ 0 < eb)).
    { assert (NS : ~ ((0 <= a /\ 0 <= b) \/ (a <= 0 /\ b <= 0))).
      { intros Q. apply same_side_spec in Q. congruence. }
      destruct (Rlt_dec 0 a) as [L1|L1].
      - left. split; [apply A1; exact L1|]. apply B2. lra.
      - right. split; [apply A2; lra|]. apply B1. lra. }
    set (ks := ka + 1 + ka / 1000) in *.
    assert (D : approx ks (rnd (a - b)) (ea - eb)).
    { apply (ap_rnd ka); [lra|unfold ks; lra|]. apply ap_add; [lra|lra|exact Ha|apply ap_neg, Hb']. }
    assert (Nd : ea - eb <> 0) by lra.
    assert (Nz : rnd (a - b) <> 0).
    { destruct (approx_sign ks _ _ ltac:(unfold ks; lra) D) as [D1 D2]. intros Q. rewrite Q in *.
      destruct (Rtotal_order (ea - eb) 0) as [T|[T|T]]; [apply D2 in T; lra|contradiction|apply D1 in T; lra]. }
    unfold f_div. destruct (Req_EM_T (rnd (a - b)) 0) as [Q|_]; [contradiction|]. eexists. split; [reflexivity|].
    intros k Lk. replace (ea + eb) with ((ea * ea - eb * eb) / (ea - eb)) by (field; exact Nd).
    assert (Ks : 0 <= ks <= 12) by (unfold ks; lra).
    set (kq := (k - 1) / (1 + / 1000)) in *.
    assert (Ek : k = kq + 1 + kq / 1000) by (unfold kq; field).
    assert (Kq : 0 <= kq) by nra.
    destruct (Rle_dec kq 100) as [Q100|Q100].
    + apply (ap_rnd kq); [lra|lra|]. apply (ap_div kn ks); [lra|lra|exact Lk|exact Nd|exact Hn|exact D].
    + apply (approx_weaken 50); [lra|]. apply (ap_rnd (48)); [lra|lra|].
      apply (ap_div kn ks); [lra|lra|nra|exact Nd|exact Hn|exact D].
Qed.

Lemma sq_term m p i : (0 <= rdB m p i)%Z -> term m p i * term m p i = IZR (rdA m p i * rdA m p i * rdB m p i)%Z.
Proof.
  intros B. unfold term. rewrite !mult_IZR. apply IZR_le in B.
  replace (IZR (rdA m p i) * sqrt (IZR (rdB m p i)) * (IZR (rdA m p i) * sqrt (IZR (rdB m p i))))
    with (IZR (rdA m p i) * IZR (rdA m p i) * (sqrt (IZR (rdB m p i)) * sqrt (IZR (rdB m p i)))) by ring.
  rewrite sqrt_sqrt by exact B. reflexivity.
Qed.
Lemma cross_term m p i j : (0 <= rdB m p i)%Z -> (0 <= rdB m p j)%Z ->
  term m p i * term m p j = IZR (rdA m p i * rdA m p j) * sqrt (IZR (rdB m p i * rdB m p j)).
Proof.
  intros Bi Bj. unfold term. rewrite !mult_IZR. apply IZR_le in Bi. apply IZR_le in Bj. rewrite sqrt_mult by assumption. ring.
Qed.

Lemma eval2_ok m p : (0 <= rdB m p 0)%Z -> (0 <= rdB m p 1)%Z ->
  exists v, eval2 rnd cv m p = Some v /\ approx (66 / 10) v (term m p 0 + term m p 1).
Proof.
  intros B0 B1. unfold eval2. destruct (eval1_ok m p B0) as [a [Ea Ha]].
  destruct (eval1_ok m (shift p 1)) as [b [Eb Hb]]; [rewrite rd_shiftB; exact B1|]. rewrite term_shift in Hb. cbn [Nat.add] in Hb.
  rewrite Ea. cbn [bind]. rewrite Eb. cbn [bind].
  set (n := (rdA m p 0 * rdA m p 0 * rdB m p 0 - rdA m p 1 * rdA m p 1 * rdB m p 1)%Z).
  destruct (combine_ok (351 / 100) (351 / 100) 1 a b (term m p 0) (term m p 1) (cv n) ltac:(lra) ltac:(lra) ltac:(lra) Ha Hb) as [C1 C2].
  destruct (same_side a b) eqn:S.
  - eexists. split; [reflexivity|]. apply (approx_weaken (351 / 100 + 1 + 351 / 100 / 1000)); [lra|]. apply C1. reflexivity.
  - destruct C2 as [v [Ev Hv]]; [reflexivity| |].
    + rewrite (sq_term m p 0 B0), (sq_term m p 1 B1), <- minus_IZR. apply ap_cv.
    + exists v. split; [exact Ev|]. apply Hv. lra.
Qed.

Lemma rdA_wr m p i a b j : ~ (p_temp p = true /\ (p_off p + j)%nat = i) -> rdA (wr m i a b) p j = rdA m p j.
Proof.
  intros H. unfold rdA, wr, upd. cbn [m_A m_tA]. destruct (p_temp p); [|reflexivity].
  destruct (Nat.eqb_spec (p_off p + j) i) as [E|E]; [exfalso; apply H; split; [reflexivity|exact E]|reflexivity].
Qed.
Lemma rdB_wr m p i a b j : ~ (p_temp p = true /\ (p_off p + j)%nat = i) -> rdB (wr m i a b) p j = rdB m p j.
Proof.
  intros H. unfold rdB, wr, upd. cbn [m_B m_tB]. destruct (p_temp p); [|reflexivity].
  destruct (Nat.eqb_spec (p_off p + j) i) as [E|E]; [exfalso; apply H; split; [reflexivity|exact E]|reflexivity].
Qed.

(* eval3 may be called on the members themselves, from their beginning *)
Definition low_ptr (p : ptr) : Prop := p_temp p = true -> p_off p = 0%nat.
Lemma eval3_ok m p : low_ptr p -> (0 <= rdB m p 0)%Z -> (0 <= rdB m p 1)%Z -> (0 <= rdB m p 2)%Z ->
  exists v m', eval3 rnd cv m p = Some (v, m') /\ approx (155 / 10) v (term m p 0 + term m p 1 + term m p 2).
Proof.
  intros LP B0 B1 B2. unfold eval3. destruct (eval2_ok m p B0 B1) as [a [Ea Ha]].
  destruct (eval1_ok m (shift p 2)) as [b [Eb Hb]]; [rewrite rd_shiftB; exact B2|]. rewrite term_shift in Hb. cbn [Nat.add] in Hb.
  rewrite Ea. cbn [bind]. rewrite Eb. cbn [bind].
  set (t3 := (rdA m p 0 * rdA m p 0 * rdB m p 0 + rdA m p 1 * rdA m p 1 * rdB m p 1 - rdA m p 2 * rdA m p 2 * rdB m p 2)%Z).
  set (m1 := wr m 3 t3 1%Z).
  assert (R : forall j, (j < 3)%nat -> rdA m1 p j = rdA m p j /\ rdB m1 p j = rdB m p j).
  { intros j Lj. unfold m1. split; [apply rdA_wr|apply rdB_wr]; intros [T E]; rewrite (LP T) in E; lia. }
  destruct (R 0%nat ltac:(lia)) as [R0 R0']. destruct (R 1%nat ltac:(lia)) as [R1 R1'].
  set (m2 := wr m1 4 (rdA m1 p 0 * rdA m1 p 1 * 2)%Z (rdB m1 p 0 * rdB m1 p 1)%Z).
  set (q := mk_ptr true 3).
  assert (Q0 : rdA m2 q 0 = t3 /\ rdB m2 q 0 = 1%Z) by (split; reflexivity).
  assert (Q1 : rdA m2 q 1 = (rdA m p 0 * rdA m p 1 * 2)%Z /\ rdB m2 q 1 = (rdB m p 0 * rdB m p 1)%Z).
  { unfold m2, q, rdA at 1, rdB at 1. cbn [p_temp p_off wr m_tA m_tB]. unfold upd. cbn [Nat.eqb Nat.add].
    rewrite R0, R1, R0', R1'. split; reflexivity. }
  destruct (eval2_ok m2 q) as [n [En Hn]]; [rewrite (proj2 Q0); lia|rewrite (proj2 Q1); apply Z.mul_nonneg_nonneg; assumption|].
  assert (Id : term m2 q 0 + term m2 q 1 =
    (term m p 0 + term m p 1) * (term m p 0 + term m p 1) - term m p 2 * term m p 2).
  { replace ((term m p 0 + term m p 1) * (term m p 0 + term m p 1) - term m p 2 * term m p 2) with
      (term m p 0 * term m p 0 + term m p 1 * term m p 1 - term m p 2 * term m p 2 + 2 * (term m p 0 * term m p 1)) by ring.
    rewrite (sq_term m p 0 B0), (sq_term m p 1 B1), (sq_term m p 2 B2), (cross_term m p 0 1 B0 B1).
    unfold term. rewrite (proj1 Q0), (proj2 Q0), (proj1 Q1), (proj2 Q1). rewrite sqrt_1. unfold t3.
    rewrite minus_IZR, plus_IZR, (mult_IZR (rdA m p 0 * rdA m p 1) 2). ring. }
  rewrite Id in Hn.
  destruct (combine_ok (66 / 10) (351 / 100) (66 / 10) a b (term m p 0 + term m p 1) (term m p 2) n
              ltac:(lra) ltac:(lra) ltac:(lra) Ha Hb) as [C1 C2].
  destruct (same_side a b) eqn:S.
  - eexists _, _. split; [reflexivity|]. apply (approx_weaken (66 / 10 + 1 + 66 / 10 / 1000)); [lra|]. apply C1. reflexivity.
  - rewrite En. cbn [bind]. destruct C2 as [v [Ev Hv]]; [reflexivity|exact Hn|].
    rewrite Ev. cbn [bind]. exists v, m2. split; [reflexivity|]. apply Hv. lra.
Qed.

Lemma eval4_ok m p : p_temp p = false -> (0 <= rdB m p 0)%Z -> (0 <= rdB m p 1)%Z -> (0 <= rdB m p 2)%Z -> (0 <= rdB m p 3)%Z ->
  exists v m', eval4 rnd cv m p = Some (v, m') /\ approx 25 v (term m p 0 + term m p 1 + (term m p 2 + term m p 3)).
Proof.
  intros LP B0 B1 B2 B3. unfold eval4. destruct (eval2_ok m p B0 B1) as [a [Ea Ha]].
  destruct (eval2_ok m (shift p 2)) as [b [Eb Hb]]; [rewrite rd_shiftB; exact B2|rewrite rd_shiftB; exact B3|].
  rewrite !term_shift in Hb. cbn [Nat.add] in Hb.
  rewrite Ea. cbn [bind]. rewrite Eb. cbn [bind].
  set (t0 := (rdA m p 0 * rdA m p 0 * rdB m p 0 + rdA m p 1 * rdA m p 1 * rdB m p 1
              - rdA m p 2 * rdA m p 2 * rdB m p 2 - rdA m p 3 * rdA m p 3 * rdB m p 3)%Z).
  assert (W : forall m' i x y j, rdA (wr m' i x y) p j = rdA m' p j /\ rdB (wr m' i x y) p j = rdB m' p j).
  { intros m' i x y j. split; [apply rdA_wr|apply rdB_wr]; intros [T _]; congruence. }
  set (m1 := wr m 0 t0 1%Z).
  set (m2 := wr m1 1 (rdA m1 p 0 * rdA m1 p 1 * 2)%Z (rdB m1 p 0 * rdB m1 p 1)%Z).
  set (m3 := wr m2 2 (rdA m2 p 2 * rdA m2 p 3 * -2)%Z (rdB m2 p 2 * rdB m2 p 3)%Z).
  set (q := mk_ptr true 0).
  assert (E1 : forall j, rdA m1 p j = rdA m p j /\ rdB m1 p j = rdB m p j) by (intros j; apply W).
  assert (E2 : forall j, rdA m2 p j = rdA m p j /\ rdB m2 p j = rdB m p j).
  { intros j. destruct (W m1 1%nat (rdA m1 p 0 * rdA m1 p 1 * 2)%Z (rdB m1 p 0 * rdB m1 p 1)%Z j) as [W1 W2].
    destruct (E1 j) as [X1 X2]. unfold m2. split; congruence. }
  assert (Q0 : rdA m3 q 0 = t0 /\ rdB m3 q 0 = 1%Z) by (split; reflexivity).
  assert (Q1 : rdA m3 q 1 = (rdA m p 0 * rdA m p 1 * 2)%Z /\ rdB m3 q 1 = (rdB m p 0 * rdB m p 1)%Z).
  { change (rdA m3 q 1) with (rdA m1 p 0 * rdA m1 p 1 * 2)%Z. change (rdB m3 q 1) with (rdB m1 p 0 * rdB m1 p 1)%Z.
    destruct (E1 0%nat) as [-> ->]. destruct (E1 1%nat) as [-> ->]. split; reflexivity. }
  assert (Q2 : rdA m3 q 2 = (rdA m p 2 * rdA m p 3 * -2)%Z /\ rdB m3 q 2 = (rdB m p 2 * rdB m p 3)%Z).
  { change (rdA m3 q 2) with (rdA m2 p 2 * rdA m2 p 3 * -2)%Z. change (rdB m3 q 2) with (rdB m2 p 2 * rdB m2 p 3)%Z.
    destruct (E2 2%nat) as [-> ->]. destruct (E2 3%nat) as [-> ->]. split; reflexivity. }
  destruct (eval3_ok m3 q) as [n [m4 [En Hn]]].
  { intros _. reflexivity. } { rewrite (proj2 Q0); lia. }
  { rewrite (proj2 Q1); apply Z.mul_nonneg_nonneg; assumption. } { rewrite (proj2 Q2); apply Z.mul_nonneg_nonneg; assumption. }
  assert (Id : term m3 q 0 + term m3 q 1 + term m3 q 2 =
    (term m p 0 + term m p 1) * (term m p 0 + term m p 1) - (term m p 2 + term m p 3) * (term m p 2 + term m p 3)).
  { replace ((term m p 0 + term m p 1) * (term m p 0 + term m p 1) - (term m p 2 + term m p 3) * (term m p 2 + term m p 3)) with
      (term m p 0 * term m p 0 + term m p 1 * term m p 1 - term m p 2 * term m p 2 - term m p 3 * term m p 3
        + 2 * (term m p 0 * term m p 1) - 2 * (term m p 2 * term m p 3)) by ring.
    rewrite (sq_term m p 0 B0), (sq_term m p 1 B1), (sq_term m p 2 B2), (sq_term m p 3 B3), (cross_term m p 0 1 B0 B1), (cross_term m p 2 3 B2 B3).
    unfold term. rewrite (proj1 Q0), (proj2 Q0), (proj1 Q1), (proj2 Q1), (proj1 Q2), (proj2 Q2). rewrite sqrt_1. unfold t0.
    rewrite !minus_IZR, plus_IZR, (mult_IZR (rdA m p 0 * rdA m p 1) 2), (mult_IZR (rdA m p 2 * rdA m p 3) (-2)). ring. }
  rewrite Id in Hn.
  destruct (combine_ok (66 / 10) (66 / 10) (155 / 10) a b (term m p 0 + term m p 1) (term m p 2 + term m p 3) n
              ltac:(lra) ltac:(lra) ltac:(lra) Ha Hb) as [C1 C2].
  destruct (same_side a b) eqn:S.
  - eexists _, _. split; [reflexivity|]. apply (approx_weaken (66 / 10 + 1 + 66 / 10 / 1000)); [lra|]. apply C1. reflexivity.
  - rewrite En. cbn [bind]. destruct C2 as [v [Ev Hv]]; [reflexivity|exact Hn|].
    rewrite Ev. cbn [bind]. exists v, m4. split; [reflexivity|]. apply Hv. lra.
Qed.
End Bounds.

(* ---------- robust_dif ---------- *)
Definition rd_ok (d : robust_dif) : Prop := 0 <= positive_sum d /\ 0 <= negative_sum d.
Lemma rd_of_ok v : rd_ok (rd_of v) /\ rd_dif (rd_of v) = v.
Proof. unfold rd_ok, rd_dif, rd_of, is_pos, is_neg. cbn [positive_sum negative_sum]. destruct (Rlt_dec 0 v), (Rlt_dec v 0); repeat split; lra. Qed.
Lemma div_nonneg a v : 0 <= a -> 0 < v -> 0 <= a / v.
Proof. intros A V. unfold Rdiv. apply Rmult_le_pos; [exact A|]. apply Rlt_le, Rinv_0_lt_compat, V. Qed.
Lemma run_ok ip e : match value e with
  | None => run ip e = None
  | Some v => exists d, run ip e = Some d /\ rd_ok d /\ rd_dif d = v
  end.
Proof.
  induction e as [v|a IHa|a IHa b IHb|a IHa v|v a IHa|a IHa b IHb|a IHa v|v a IHa|a IHa b IHb|a IHa v|v a IHa|a IHa v]; cbn [value run].
  1: { exists (rd_of v). split; [reflexivity|]. apply rd_of_ok. }
  all: destruct (value a) as [x|]; [destruct IHa as [d [-> [[P N] E]]]|rewrite IHa];
    try (destruct (value b) as [y|]; [destruct IHb as [d' [-> [[P' N'] E']]]|rewrite IHb]); cbn [bind opt2]; try reflexivity;
    try (destruct (Req_EM_T v 0) as [Z0|Z0]).
  all: unfold rd_dif in *.
  (* division *)
  all: try (unfold rd_div_v, rd_div_v2; destruct (Req_EM_T v 0) as [Z1|Z1]; [|contradiction]; destruct ip; reflexivity).
  all: try reflexivity.
  all: try (unfold rd_div_v, rd_div_v2; destruct (Req_EM_T v 0) as [Z1|Z1]; [contradiction|]).
  all: try (destruct (is_neg v) eqn:V; [apply is_neg_spec in V|apply is_neg_false in V]).
  all: unfold rd_neg, rd_add, rd_add_v, rd_v_add, rd_sub, rd_sub_v, rd_v_sub, rd_mul, rd_mul_v, rd_mul_v2, rd_v_mul.
  all: try rewrite (proj2 (is_neg_spec v) V); try rewrite (proj2 (is_neg_false v) V); cbn [negb].
  all: try (destruct ip).
  all: eexists; split; [reflexivity|]; unfold rd_ok; cbn [positive_sum negative_sum]; subst.
  all: try (split; [split; nra|lra]).
  all: try (split; [split; nra|field; lra]).
  all: split; [split|field; lra].
  all: try (replace (- negative_sum d / v) with (negative_sum d / - v) by (field; lra)).
  all: try (replace (- positive_sum d / v) with (positive_sum d / - v) by (field; lra)).
  all: apply div_nonneg; lra.
Qed.

(* ---------- robust_fpt ---------- *)
Section Tracks.
Variable eps : R.
Hypothesis EPS : 0 < eps.
Variable rnd : R -> R.
Hypothesis RND : rounds (eps / (1 + eps)) rnd.

Lemma ln_pos : 0 < ln (1 + eps).
Proof. rewrite <- ln_1. apply ln_increasing; lra. Qed.
Lemma ln_small : ln (1 + eps) <= eps.
Proof.
  apply Rlt_le. rewrite <- (ln_exp eps) at 2. apply ln_increasing; [lra|]. apply exp_ineq1. lra.
Qed.
(* a factor between the bounds is a power of 1 + eps *)
Lemma as_power k d : Rpower (1 + eps) (- k) <= d <= Rpower (1 + eps) k -> exists t, d = Rpower (1 + eps) t /\ Rabs t <= k.
Proof.
  intros [L U]. pose proof ln_pos as LP. assert (P : 0 < d) by (eapply Rlt_le_trans; [|exact L]; apply exp_pos).
  exists (ln d / ln (1 + eps)). split.
  - unfold Rpower. replace (ln d / ln (1 + eps) * ln (1 + eps)) with (ln d) by (field; lra). rewrite exp_ln; [reflexivity|exact P].
  - assert (L1 : - k * ln (1 + eps) <= ln d).
    { destruct (Rle_lt_or_eq_dec _ _ L) as [Q|Q].
      - apply Rlt_le. rewrite <- (ln_exp (- k * ln (1 + eps))). apply ln_increasing; [apply exp_pos|exact Q].
      - rewrite <- Q. unfold Rpower. rewrite ln_exp. lra. }
    assert (L2 : ln d <= k * ln (1 + eps)).
    { destruct (Rle_lt_or_eq_dec _ _ U) as [Q|Q].
      - apply Rlt_le. rewrite <- (ln_exp (k * ln (1 + eps))). apply ln_increasing; [exact P|exact Q].
      - rewrite Q. unfold Rpower. rewrite ln_exp. lra. }
    apply abs_bound. split; apply (Rmult_le_reg_r (ln (1 + eps))); try exact LP; unfold Rdiv; rewrite ?Rmult_assoc, ?Rinv_l by lra; lra.
Qed.
Lemma rnd_power v : exists s, rnd v = v * Rpower (1 + eps) s /\ Rabs s <= 1.
Proof.
  assert (P : 0 < 1 + eps) by lra.
  assert (K : 0 <= eps / (1 + eps)) by (apply div_nonneg; lra).
  destruct (Req_dec v 0) as [->|N].
  - exists 0. split; [|rewrite Rabs_R0; lra]. pose proof (RND 0) as Q. rewrite Rabs_R0, Rmult_0_r in Q. pose proof (Rabs_pos (rnd 0 - 0)).
    assert (E : Rabs (rnd 0 - 0) = 0) by lra. destruct (Req_dec (rnd 0 - 0) 0) as [E0|E0]; [lra|apply Rabs_no_R0 in E0; contradiction].
  - pose proof (RND v) as Q.
    destruct (as_power 1 (rnd v / v)) as [t [E Ht]].
    + rewrite Rpower_Ropp, Rpower_1 by exact P.
      assert (A : Rabs (rnd v / v - 1) <= eps / (1 + eps)).
      { replace (rnd v / v - 1) with ((rnd v - v) * / v) by (field; exact N). rewrite Rabs_mult, Rabs_inv.
        pose proof (Rabs_pos_lt v N). apply (Rmult_le_reg_r (Rabs v)); [assumption|]. rewrite Rmult_assoc, Rinv_l by lra. lra. }
      apply abs_bound in A. 
      assert (E1 : eps / (1 + eps) = 1 - / (1 + eps)) by (field; lra).
      assert (I : 0 < / (1 + eps)) by (apply Rinv_0_lt_compat; lra).
      assert (E2 : 1 - / (1 + eps) <= eps) by (rewrite <- E1; apply (Rmult_le_reg_r (1 + eps)); [exact P|]; unfold Rdiv; rewrite Rmult_assoc, Rinv_l by lra; nra).
      lra.
    + exists t. split; [|exact Ht]. rewrite <- E. field. exact N.
Qed.
Lemma abs_add a b j k : Rabs a <= j -> Rabs b <= k -> Rabs (a + b) <= j + k.
Proof. intros A B. eapply Rle_trans; [apply Rabs_triang|lra]. Qed.
Lemma tracks_rnd k x X : tracks eps k x X -> tracks eps (k + 1) (rnd x) X.
Proof.
  intros [t [-> T]]. destruct (rnd_power (X * Rpower (1 + eps) t)) as [s [-> Hs]]. exists (t + s).
  split; [rewrite Rpower_plus; ring|apply abs_add; assumption].
Qed.
Lemma tracks_mul j k x X y Y : tracks eps j x X -> tracks eps k y Y -> tracks eps (j + k) (x * y) (X * Y).
Proof. intros [t [-> T]] [s [-> Hs]]. exists (t + s). split; [rewrite Rpower_plus; ring|apply abs_add; assumption]. Qed.
Lemma power_pos t : 0 < Rpower (1 + eps) t.
Proof. apply exp_pos. Qed.
Lemma tracks_div j k x X y Y : Y <> 0 -> tracks eps j x X -> tracks eps k y Y -> tracks eps (j + k) (x / y) (X / Y) /\ y <> 0.
Proof.
  intros N [t [-> T]] [s [-> Hs]]. pose proof (power_pos s) as Ps. split; [|apply Rmult_integral_contrapositive_currified; [exact N|lra]].
  exists (t + - s). split; [rewrite Rpower_plus, Rpower_Ropp; field; split; [lra|exact N]|apply abs_add; [exact T|rewrite Rabs_Ropp; exact Hs]].
Qed.
Lemma tracks_sqrt k x X : 0 <= X -> tracks eps k x X -> 0 <= x /\ tracks eps (k * / 2) (sqrt x) (sqrt X).
Proof.
  intros NX [t [-> T]]. pose proof (power_pos t) as Pt. split; [apply Rmult_le_pos; lra|]. exists (t * / 2). split.
  - rewrite sqrt_mult by lra. f_equal. rewrite <- (Rpower_sqrt (Rpower (1 + eps) t)) by exact Pt. rewrite Rpower_mult. reflexivity.
  - rewrite Rabs_mult, (Rabs_pos_eq (/ 2)) by lra. lra.
Qed.
Lemma tracks_neg k x X : tracks eps k x X -> tracks eps k (- x) (- X).
Proof. intros [t [-> T]]. exists t. split; [ring|exact T]. Qed.
Lemma tracks_weaken j k x X : j <= k -> tracks eps j x X -> tracks eps k x X.
Proof. intros L [t [E T]]. exists t. split; [exact E|lra]. Qed.
Lemma tracks_same_sign k x X : tracks eps k x X -> same_sign x X.
Proof. intros [t [-> T]]. pose proof (power_pos t). unfold same_sign. split; split; intros Q; nra. Qed.
Lemma power_mono a b : a <= b -> Rpower (1 + eps) a <= Rpower (1 + eps) b.
Proof. intros L. apply Rle_Rpower; lra. Qed.
Lemma tracks_bounds k x X : 0 <= X -> tracks eps k x X -> X * Rpower (1 + eps) (- k) <= x <= X * Rpower (1 + eps) k.
Proof.
  intros NX [t [-> T]]. apply abs_bound in T. split; apply Rmult_le_compat_l; try exact NX; apply power_mono; lra.
Qed.
Lemma bounds_tracks k x X : 0 <= k -> 0 <= X -> X * Rpower (1 + eps) (- k) <= x <= X * Rpower (1 + eps) k -> tracks eps k x X.
Proof.
  intros K NX [L U]. destruct (Rle_lt_or_eq_dec _ _ NX) as [P|Z].
  - destruct (as_power k (x / X)) as [t [E T]].
    + split; apply (Rmult_le_reg_r X); try exact P; unfold Rdiv; rewrite ?Rmult_assoc, ?Rinv_l by lra; lra.
    + exists t. split; [|exact T]. rewrite <- E. field. lra.
  - subst X. rewrite Rmult_0_l in *. exists 0. split; [lra|rewrite Rabs_R0; exact K].
Qed.
Lemma tracks_add_nonneg k x X y Y : 0 <= k -> 0 <= X -> 0 <= Y -> tracks eps k x X -> tracks eps k y Y -> tracks eps k (x + y) (X + Y).
Proof.
  intros K NX NY HX HY. apply tracks_bounds in HX; [|exact NX]. apply tracks_bounds in HY; [|exact NY].
  apply bounds_tracks; [exact K|lra|]. rewrite !Rmult_plus_distr_r. lra.
Qed.
Lemma tracks_add k x X y Y : 0 <= k -> (0 <= X /\ 0 <= Y) \/ (X <= 0 /\ Y <= 0) -> tracks eps k x X -> tracks eps k y Y -> tracks eps k (x + y) (X + Y).
Proof.
  intros K [[A B]|[A B]] HX HY; [apply tracks_add_nonneg; assumption|].
  replace (x + y) with (- (- x + - y)) by ring. replace (X + Y) with (- (- X + - Y)) by ring. apply tracks_neg, tracks_add_nonneg; try lra; apply tracks_neg; assumption.
Qed.
Lemma tracks_k_nonneg k x X : tracks eps k x X -> 0 <= k.
Proof. intros [t [_ T]]. pose proof (Rabs_pos t). lra. Qed.

(* relative to the computed value *)
Lemma tracks_abs k r x X : k <= r -> r * eps < 1 -> tracks eps k x X -> Rabs (x - X) <= k * eps / (1 - r * eps) * Rabs x.
Proof.
  intros Lk Lr H. pose proof (tracks_k_nonneg _ _ _ H) as K. destruct H as [t [-> T]].
  assert (B : Rabs (X * Rpower (1 + eps) t - X) = Rabs (1 - Rpower (1 + eps) (- t)) * Rabs (X * Rpower (1 + eps) t)).
  { rewrite <- Rabs_mult. f_equal. rewrite Rpower_Ropp. field. pose proof (power_pos t). lra. }
  rewrite B. apply Rmult_le_compat_r; [apply Rabs_pos|]. apply abs_bound in T.
  pose proof ln_pos as LP. pose proof ln_small as LS.
  assert (U : Rpower (1 + eps) (- t) <= / (1 - k * eps)).
  { eapply Rle_trans; [apply (power_mono (- t) k); lra|]. unfold Rpower.
    assert (E : exp (k * ln (1 + eps)) = / exp (- (k * ln (1 + eps)))) by (rewrite exp_Ropp, Rinv_inv; reflexivity).
    rewrite E. apply Rinv_le_contravar; [nra|]. eapply Rle_trans; [|apply exp_ineq1_le]. nra. }
  assert (L : 1 - k * eps <= Rpower (1 + eps) (- t)).
  { eapply Rle_trans; [|apply (power_mono (- k) (- t)); lra]. unfold Rpower. eapply Rle_trans; [|apply exp_ineq1_le]. nra. }
  assert (D1 : 0 < 1 - k * eps) by nra. assert (D2 : 0 < 1 - r * eps) by lra.
  assert (M : k * eps / (1 - k * eps) <= k * eps / (1 - r * eps)).
  { unfold Rdiv. apply Rmult_le_compat_l; [nra|]. apply Rinv_le_contravar; nra. }
  assert (I : / (1 - k * eps) = 1 + k * eps / (1 - k * eps)) by (field; lra).
  assert (M2 : k * eps <= k * eps / (1 - k * eps)).
  { apply (Rmult_le_reg_r (1 - k * eps)); [exact D1|]. replace (k * eps / (1 - k * eps) * (1 - k * eps)) with (k * eps) by (field; lra). nra. }
  apply abs_bound. lra.
Qed.
Lemma rnd_abs v : Rabs (rnd v - v) <= eps * Rabs (rnd v).
Proof.
  pose proof (RND v) as Q. assert (P : 0 < 1 + eps) by lra.
  assert (T : Rabs v <= Rabs (rnd v) + Rabs (rnd v - v)).
  { replace v with (rnd v + - (rnd v - v)) at 1 by ring. eapply Rle_trans; [apply Rabs_triang|]. rewrite Rabs_Ropp. lra. }
  assert (Q' : (1 + eps) * Rabs (rnd v - v) <= eps * Rabs v).
  { replace (eps * Rabs v) with ((1 + eps) * (eps / (1 + eps) * Rabs v)) by (field; lra). apply Rmult_le_compat_l; [lra|exact Q]. }
  nra.
Qed.
Lemma cancel_bound r rx ry x X y Y : rx <= r -> ry <= r -> r * eps < 1 -> tracks eps rx x X -> tracks eps ry y Y ->
  (0 <= x /\ y <= 0) \/ (x <= 0 /\ 0 <= y) ->
  rnd (x + y) <> 0 ->
  Rabs (rnd (x + y) - (X + Y)) <= (Rabs ((x * rx - y * ry) / rnd (x + y)) + 1) * eps / (1 - r * eps) * Rabs (rnd (x + y)).
Proof.
  intros Lx Ly Lr HX HY S N.
  pose proof (tracks_k_nonneg _ _ _ HX) as Kx. pose proof (tracks_k_nonneg _ _ _ HY) as Ky.
  pose proof (tracks_abs _ r _ _ Lx Lr HX) as Ax. pose proof (tracks_abs _ r _ _ Ly Lr HY) as Ay. pose proof (rnd_abs (x + y)) as Av.
  set (v := rnd (x + y)) in *. pose proof (Rabs_pos_lt v N) as Pv.
  assert (E : Rabs ((x * rx - y * ry) / v) * Rabs v = rx * Rabs x + ry * Rabs y).
  { rewrite <- Rabs_mult. replace ((x * rx - y * ry) / v * v) with (x * rx + - y * ry) by (field; exact N).
    destruct S as [[A B]|[A B]].
    - rewrite (Rabs_pos_eq x), (Rabs_left1 y) by lra. rewrite Rabs_pos_eq by nra. ring.
    - rewrite (Rabs_left1 x), (Rabs_pos_eq y) by lra. rewrite Rabs_left1 by nra. ring. }
  assert (D : 0 < 1 - r * eps) by lra.
  assert (R0 : 0 <= r * eps) by nra.
  assert (T : Rabs (v - (X + Y)) <= Rabs (x - X) + Rabs (y - Y) + Rabs (v - (x + y))).
  { replace (v - (X + Y)) with ((x - X) + (y - Y) + (v - (x + y))) by ring.
    eapply Rle_trans; [apply Rabs_triang|]. apply Rplus_le_compat_r. apply Rabs_triang. }
  replace ((Rabs ((x * rx - y * ry) / v) + 1) * eps / (1 - r * eps) * Rabs v) with
    (eps / (1 - r * eps) * (Rabs ((x * rx - y * ry) / v) * Rabs v + Rabs v)) by (field; lra).
  rewrite E.
  assert (Q : eps * Rabs v <= eps / (1 - r * eps) * Rabs v).
  { apply Rmult_le_compat_r; [lra|]. apply (Rmult_le_reg_r (1 - r * eps)); [exact D|]. unfold Rdiv. rewrite Rmult_assoc, Rinv_l by lra. nra. }
  replace (eps / (1 - r * eps) * (rx * Rabs x + ry * Rabs y + Rabs v)) with
    (rx * eps / (1 - r * eps) * Rabs x + ry * eps / (1 - r * eps) * Rabs y + eps / (1 - r * eps) * Rabs v) by (field; lra).
  lra.
Qed.
End Tracks.
