(* Facts about the model of extended_exponent_fpt. *)
From Coq Require Import Reals ZArith Bool Lra Lia Psatz.
From Flocq Require Import Core BinarySingleNaN Plus_error Relative Mult_error.
From Verif Require Import EfptSpec EfptModel.
Local Open Scope R_scope.

Notation fe := (SpecFloat.fexp 53 1024).
Notation rnd := (round radix2 fe ZnearestE).
Definition small (e : Z) : Prop := (-1000000000 <= e <= 1000000000)%Z.

(* a value written as a number in [1/2, 1) and an exponent, or zero *)
Definition valid (a : efpt) : Prop :=
  is_finite (e_val a) = true /\ (B2R (e_val a) = 0 \/ / 2 <= Rabs (B2R (e_val a)) < 1).
Definition value (a : efpt) : R := scaled (B2R (e_val a)) (e_exp a).

Lemma half_pow : bpow radix2 (-1) = / 2.
Proof. reflexivity. Qed.
Lemma pow_pos : forall e, 0 < bpow radix2 e.
Proof. intros; apply bpow_gt_0. Qed.
Lemma u_small : 0 < bpow radix2 (-53) < / 4.
Proof.
  split; [apply bpow_gt_0|]. replace (/ 4) with (bpow radix2 (-2)) by (cbn; lra). apply bpow_lt; lia.
Qed.
Lemma near_sign : forall v x, near v x -> sign_as v x.
Proof.
  intros v x H. unfold near in H. pose proof u_small as U. unfold sign_as.
  set (u := bpow radix2 (-53)) in *.
  destruct (Rtotal_order x 0) as [L|[E|G]].
  - rewrite (Rabs_left x L) in H. apply Rabs_le_inv in H. assert (u * - x < / 4 * - x) by (apply Rmult_lt_compat_r; lra).
    repeat split; intros; lra.
  - subst x. rewrite Rabs_R0, Rmult_0_r in H. rewrite Rminus_0_r in H.
    assert (v = 0) by (apply Rabs_le_inv in H; lra). repeat split; intros; lra.
  - rewrite (Rabs_right x) in H by lra. apply Rabs_le_inv in H. assert (u * x < / 4 * x) by (apply Rmult_lt_compat_r; lra).
    repeat split; intros; lra.
Qed.
Lemma near_scale : forall v x e, near v x -> near (v * bpow radix2 e) (x * bpow radix2 e).
Proof.
  intros v x e H. unfold near in *. rewrite <- Rmult_minus_distr_r, 2!Rabs_mult.
  rewrite (Rabs_right (bpow radix2 e)) by (apply Rle_ge, bpow_ge_0).
  rewrite <- Rmult_assoc. apply Rmult_le_compat_r; [apply bpow_ge_0|assumption].
Qed.
Lemma near_refl : forall x, near x x.
Proof.
  intros. unfold near. rewrite Rminus_diag_eq, Rabs_R0 by reflexivity.
  apply Rmult_le_pos; [apply bpow_ge_0|apply Rabs_pos].
Qed.
Lemma round_near : forall x, x = 0 \/ bpow radix2 (-1022) <= Rabs x -> near (rnd x) x.
Proof.
  intros x [->|H].
  - rewrite round_0 by typeclasses eauto. apply near_refl.
  - unfold near.
    replace (bpow radix2 (-53)) with (/ 2 * bpow radix2 (- 53 + 1)).
    + exact (relative_error_N_FLT radix2 (-1074) 53 eq_refl (fun n => negb (Z.even n)) x H).
    + rewrite <- half_pow, <- bpow_plus. reflexivity.
Qed.
Lemma near_bound : forall v x, near v x -> Rabs x <= bpow radix2 100 -> Rlt_bool (Rabs v) (bpow radix2 1024) = true.
Proof.
  intros v x H B. apply Rlt_bool_true. pose proof u_small as U. unfold near in H.
  assert (Rabs v <= Rabs (v - x) + Rabs x).
  { replace v with ((v - x) + x) at 1 by ring. apply Rabs_triang. }
  assert (bpow radix2 (-53) * Rabs x <= / 4 * Rabs x) by (apply Rmult_le_compat_r; [apply Rabs_pos|lra]).
  assert (bpow radix2 100 * 2 < bpow radix2 1024).
  { change 2 with (bpow radix2 1). rewrite <- bpow_plus. apply bpow_lt; lia. }
  pose proof (Rabs_pos x). lra.
Qed.

Lemma frexp_fact : forall v, is_finite v = true -> exists m e, frexp v = (m, e) /\ is_finite m = true
  /\ (B2R m = 0 \/ / 2 <= Rabs (B2R m) < 1) /\ B2R v = B2R m * bpow radix2 e /\ (-1100 <= e <= 1100)%Z.
Proof.
  intros v F. destruct v as [s| | |s m e H]; try discriminate F.
  - exists (B754_zero s), 0%Z. cbn [frexp]. repeat split; try lia; [left; reflexivity|cbn; lra].
  - pose proof (Bfrexp_correct 53 1024 prec53 (B754_finite s m e H) eq_refl) as C.
    cbn [frexp]. destruct (Bfrexp (B754_finite s m e H)) as [z k]. destruct C as (C1 & C2).
    destruct (C2 eq_refl) as (C3 & C4). exists z, k. split; [reflexivity|].
    assert (NZ : B2R z <> 0).
    { intros E0. rewrite E0, Rabs_R0 in C3. lra. }
    assert (NV : B2R (B754_finite s m e H) <> 0).
    { rewrite C1. apply Rmult_integral_contrapositive_currified; [assumption|apply Rgt_not_eq, bpow_gt_0]. }
    split; [destruct z; [reflexivity|cbn in NZ; lra..|reflexivity]|].
    split; [right; lra|]. split; [assumption|].
    rewrite C4. split.
    + apply Z.lt_le_incl. apply mag_gt_bpow.
      destruct (Rle_or_lt (bpow radix2 (-1100)) (Rabs (B2R (B754_finite s m e H)))) as [L|L]; [assumption|exfalso].
      pose proof (generic_format_B2R 53 1024 (B754_finite s m e H)) as G.
      apply generic_format_abs in G.
      apply (generic_format_ge_bpow radix2 fe (-1074)) in G.
      * assert (bpow radix2 (-1100) < bpow radix2 (-1074)) by (apply bpow_lt; lia). lra.
      * intros q. unfold SpecFloat.fexp, SpecFloat.emin. lia.
      * apply Rabs_pos_lt. assumption.
    + apply mag_le_bpow; [assumption|].
      eapply Rlt_trans; [apply abs_B2R_lt_emax|apply bpow_lt; lia].
Qed.

Lemma make_fact : forall v e, is_finite v = true -> (-2147480000 <= e <= 2147480000)%Z ->
  exists c, make v e = Val c /\ valid c /\ value c = B2R v * bpow radix2 e.
Proof.
  intros v e F R. destruct (frexp_fact v F) as (m & k & E & Fm & V & B & K).
  exists (mk_efpt m (k + e)). unfold make. rewrite F, E. cbn [fst snd].
  assert (int_ok (k + e) = true) as -> by (unfold int_ok; apply andb_true_intro; split; apply Z.leb_le; lia).
  split; [reflexivity|]. split; [split; assumption|].
  unfold value, scaled. cbn [e_val e_exp]. rewrite B, bpow_plus. ring.
Qed.

Lemma zero_eqb : forall v, is_finite v = true -> Beqb v f_zero = Req_bool (B2R v) 0.
Proof. intros. rewrite Beqb_correct by auto. reflexivity. Qed.
Lemma small_ok : forall e, (-2147483648 <= e <= 2147483647)%Z -> int_ok e = true.
Proof. intros. unfold int_ok. apply andb_true_intro; split; apply Z.leb_le; lia. Qed.

(* moving a number of [1/2, 1) up by at most 54 places is exact *)
Lemma ldexp_exact : forall v d, is_finite v = true -> / 2 <= Rabs (B2R v) < 1 -> (0 <= d <= 54)%Z ->
  B2R (ldexp v d) = B2R v * bpow radix2 d /\ is_finite (ldexp v d) = true.
Proof.
  intros v d F V D. pose proof (Bldexp_correct 53 1024 _ _ mode_NE v d) as C.
  assert (G : generic_format radix2 fe (B2R v * bpow radix2 d)).
  { apply (mult_bpow_exact_FLT radix2 (-1074) 53); [exact (generic_format_B2R 53 1024 v)|].
    assert (0 <= mag radix2 (B2R v))%Z; [|lia].
    assert (-1 < mag radix2 (B2R v))%Z; [|lia]. apply mag_gt_bpow. rewrite half_pow. lra. }
  rewrite round_generic in C; [|typeclasses eauto|assumption].
  rewrite Rlt_bool_true in C.
  - destruct C as (C1 & C2 & _). unfold ldexp. rewrite C2. split; assumption.
  - rewrite Rabs_mult, (Rabs_right (bpow radix2 d)) by (apply Rle_ge, bpow_ge_0).
    assert (Rabs (B2R v) * bpow radix2 d <= 1 * bpow radix2 d) by (apply Rmult_le_compat_r; [apply bpow_ge_0|lra]).
    assert (bpow radix2 d < bpow radix2 1024) by (apply bpow_lt; lia). lra.
Qed.
Lemma sum_near : forall x y, generic_format radix2 fe x -> generic_format radix2 fe y -> near (rnd (x + y)) (x + y).
Proof.
  intros x y X Y. pose proof u_small as U.
  destruct (@FLT_plus_error_N_ex radix2 (-1074) 53 prec53 (fun n => negb (Z.even n)) x y X Y) as (eps & E & R).
  change (rnd (x + y) = (x + y) * (1 + eps)) in R. unfold near. rewrite R.
  replace ((x + y) * (1 + eps) - (x + y)) with (eps * (x + y)) by ring. rewrite Rabs_mult.
  apply Rmult_le_compat_r; [apply Rabs_pos|].
  assert (W : u_ro radix2 53 = bpow radix2 (-53)).
  { unfold u_ro. rewrite <- half_pow, <- bpow_plus. reflexivity. }
  rewrite W in E. eapply Rle_trans; [exact E|].
  apply Rmult_le_reg_r with (1 + bpow radix2 (-53)); [lra|]. unfold Rdiv.
  rewrite Rmult_assoc, Rinv_l by lra. nra.
Qed.
(* the addition of two doubles of moderate size *)
Lemma bplus_fact : forall x y : fpt, is_finite x = true -> is_finite y = true -> Rabs (B2R x) <= bpow radix2 60 ->
  Rabs (B2R y) <= bpow radix2 60 -> is_finite (Bplus mode_NE x y) = true /\ near (B2R (Bplus mode_NE x y)) (B2R x + B2R y)
  /\ B2R (Bplus mode_NE x y) = rnd (B2R x + B2R y).
Proof.
  intros x y X Y BX BY. pose proof (Bplus_correct 53 1024 _ _ mode_NE x y X Y) as C.
  pose proof (sum_near (B2R x) (B2R y) (generic_format_B2R _ _ x) (generic_format_B2R _ _ y)) as N.
  cbn [round_mode] in C. rewrite (near_bound _ _ N) in C.
  - destruct C as (C1 & C2 & _). rewrite C1. repeat split; assumption.
  - eapply Rle_trans; [apply Rabs_triang|].
    assert (bpow radix2 60 * 2 <= bpow radix2 100).
    { change 2 with (bpow radix2 1). rewrite <- bpow_plus. apply bpow_le; lia. } lra.
Qed.
Lemma bopp_minus : forall x y : fpt, is_finite x = true -> is_finite y = true -> Rabs (B2R x) <= bpow radix2 60 ->
  Rabs (B2R y) <= bpow radix2 60 -> is_finite (Bminus mode_NE x y) = true /\ near (B2R (Bminus mode_NE x y)) (B2R x - B2R y)
  /\ B2R (Bminus mode_NE x y) = rnd (B2R x - B2R y).
Proof.
  intros x y X Y BX BY. pose proof (Bminus_correct 53 1024 _ _ mode_NE x y X Y) as C.
  pose proof (sum_near (B2R x) (- B2R y) (generic_format_B2R _ _ x)
    (generic_format_opp _ _ _ (generic_format_B2R _ _ y))) as N.
  change (B2R x + - B2R y) with (B2R x - B2R y) in N.
  cbn [round_mode] in C. rewrite (near_bound _ _ N) in C.
  - destruct C as (C1 & C2 & _). rewrite C1. repeat split; assumption.
  - unfold Rminus. eapply Rle_trans; [apply Rabs_triang|]. rewrite Rabs_Ropp.
    assert (bpow radix2 60 * 2 <= bpow radix2 100).
    { change 2 with (bpow radix2 1). rewrite <- bpow_plus. apply bpow_le; lia. } lra.
Qed.
(* a number more than 54 places below is less than a rounding error *)
Lemma drop_near : forall m n e f, / 2 <= Rabs m < 1 -> Rabs n < 1 -> (f > e + 54)%Z ->
  near (m * bpow radix2 f) (m * bpow radix2 f + n * bpow radix2 e).
Proof.
  intros m n e f M N D. unfold near.
  replace (m * bpow radix2 f - (m * bpow radix2 f + n * bpow radix2 e)) with (- (n * bpow radix2 e)) by ring.
  rewrite Rabs_Ropp.
  assert (P : bpow radix2 e <= bpow radix2 (-55) * bpow radix2 f) by (rewrite <- bpow_plus; apply bpow_le; lia).
  pose proof (pow_pos e) as E0. pose proof (pow_pos f) as F0.
  assert (B1 : Rabs (n * bpow radix2 e) <= bpow radix2 e).
  { rewrite Rabs_mult, (Rabs_right (bpow radix2 e)) by lra. pose proof (Rabs_pos n). nra. }
  assert (B2 : / 2 * bpow radix2 f <= Rabs (m * bpow radix2 f)).
  { rewrite Rabs_mult, (Rabs_right (bpow radix2 f)) by lra. apply Rmult_le_compat_r; lra. }
  assert (B3 : Rabs (m * bpow radix2 f) - Rabs (n * bpow radix2 e) <= Rabs (m * bpow radix2 f + n * bpow radix2 e)).
  { pose proof (Rabs_triang_inv (m * bpow radix2 f) (- (n * bpow radix2 e))) as T. rewrite Rabs_Ropp in T.
    replace (m * bpow radix2 f - - (n * bpow radix2 e)) with (m * bpow radix2 f + n * bpow radix2 e) in T by ring. lra. }
  assert (Q : bpow radix2 (-55) = bpow radix2 (-53) * / 4).
  { replace (/ 4) with (bpow radix2 (-2)) by (cbn; lra). rewrite <- bpow_plus. reflexivity. }
  rewrite Q in P. pose proof u_small as U. set (u := bpow radix2 (-53)) in *.
  assert (u * / 4 * bpow radix2 f <= / 16 * bpow radix2 f) by (apply Rmult_le_compat_r; lra).
  assert (u * (/ 4 * bpow radix2 f) <= u * Rabs (m * bpow radix2 f + n * bpow radix2 e)) by (apply Rmult_le_compat_l; lra).
  lra.
Qed.
