(* The operations round correctly, as if the exponent had no bounds. *)
From Coq Require Import Reals ZArith Bool Lra Lia Psatz.
From Flocq Require Import Core BinarySingleNaN Plus_error Relative Mult_error.
From Verif Require Import EfptSpec EfptModel EfptProofs.
Local Open Scope R_scope.

#[global] Instance flx53 : Valid_exp (FLX_exp 53) := FLX_exp_valid 53.
Lemma nearest_near : forall x, near (nearest x) x.
Proof.
  intros x. unfold near, nearest. replace (bpow radix2 (-53)) with (/ 2 * bpow radix2 (- 53 + 1)).
  - apply relative_error_N_FLX. reflexivity.
  - rewrite <- half_pow, <- bpow_plus. reflexivity.
Qed.
Lemma nearest_scale : forall x e, nearest (x * bpow radix2 e) = nearest x * bpow radix2 e.
Proof.
  intros x e. unfold nearest. destruct (Req_dec x 0) as [->|N].
  - rewrite Rmult_0_l, round_0 by typeclasses eauto. ring.
  - unfold round, scaled_mantissa, cexp, F2R. cbn [Fnum Fexp]. rewrite mag_mult_bpow by assumption. unfold FLX_exp.
    replace (x * bpow radix2 e * bpow radix2 (- (mag radix2 x + e - 53))) with (x * bpow radix2 (- (mag radix2 x - 53))).
    + rewrite Rmult_assoc, <- bpow_plus. do 2 f_equal. lia.
    + rewrite Rmult_assoc, <- bpow_plus. do 2 f_equal. lia.
Qed.
Lemma nearest_normal : forall x, x = 0 \/ bpow radix2 (-1022) <= Rabs x -> rnd x = nearest x.
Proof.
  intros x [->|H]; [unfold nearest; rewrite 2!round_0 by typeclasses eauto; reflexivity|].
  exact (round_FLT_FLX radix2 (-1074) 53 ZnearestE x H).
Qed.
Lemma nearest_format : forall x, generic_format radix2 (FLX_exp 53) x -> nearest x = x.
Proof. intros x G. apply round_generic; [typeclasses eauto|assumption]. Qed.
Lemma format_double : forall x, generic_format radix2 fe x -> generic_format radix2 (FLX_exp 53) x.
Proof. intros x G. exact (generic_format_FLX_FLT radix2 (-1074) 53 x G). Qed.
Lemma nearest_sum : forall x y, generic_format radix2 fe x -> generic_format radix2 fe y -> rnd (x + y) = nearest (x + y).
Proof.
  intros x y X Y. destruct (Rle_or_lt (bpow radix2 (-1022)) (Rabs (x + y))) as [L|L]; [apply nearest_normal; right; assumption|].
  assert (G : generic_format radix2 fe (x + y)).
  { apply (@FLT_format_plus_small radix2 (-1074) 53 prec53); [exact X|exact Y|].
    apply Rlt_le. eapply Rlt_le_trans; [exact L|]. apply bpow_le. lia. }
  rewrite nearest_format by (apply format_double; assumption). apply round_generic; [typeclasses eauto|assumption].
Qed.
Lemma format_scale : forall x e, generic_format radix2 (FLX_exp 53) x -> generic_format radix2 (FLX_exp 53) (x * bpow radix2 e).
Proof.
  intros x e G. rewrite <- (nearest_format x G), <- nearest_scale. apply generic_format_round; typeclasses eauto.
Qed.
Lemma value_format : forall a, generic_format radix2 (FLX_exp 53) (value a).
Proof. intros a. apply format_scale, format_double, generic_format_B2R. Qed.
(* numbers of 53 digits of size at least 2^k are multiples of 2^(k - 52) *)
Lemma multiple : forall x k, generic_format radix2 (FLX_exp 53) x -> bpow radix2 k <= Rabs x ->
  exists n, x = IZR n * bpow radix2 (k - 52).
Proof.
  intros x k G B. assert (M : (k < mag radix2 x)%Z) by (apply mag_gt_bpow; assumption).
  rewrite G. unfold F2R, cexp, FLX_exp. cbn [Fnum Fexp].
  set (m := Ztrunc (scaled_mantissa radix2 (fun e : Z => (e - 53)%Z) x)).
  exists (m * 2 ^ (mag radix2 x - 53 - (k - 52)))%Z. rewrite mult_IZR.
  change (2 ^ (mag radix2 x - 53 - (k - 52)))%Z with (radix2 ^ (mag radix2 x - 53 - (k - 52)))%Z.
  rewrite IZR_Zpower by lia. rewrite Rmult_assoc, <- bpow_plus. do 2 f_equal. lia.
Qed.
(* a number more than 54 places below does not change the rounded sum *)
Lemma drop_nearest : forall m n e f, generic_format radix2 (FLX_exp 53) m -> / 2 <= Rabs m < 1 -> Rabs n < 1 -> (f > e + 54)%Z ->
  m * bpow radix2 f = nearest (m * bpow radix2 f + n * bpow radix2 e).
Proof.
  intros m n e f G M N D. set (a := m * bpow radix2 f). set (b := n * bpow radix2 e).
  assert (GA : generic_format radix2 (FLX_exp 53) a) by (apply format_scale; assumption).
  destruct (round_N_pt radix2 (FLX_exp 53) (fun t => negb (Z.even t)) (a + b)) as (GR & RN).
  change (round radix2 (FLX_exp 53) (Znearest (fun t : Z => negb (Z.even t))) (a + b)) with (nearest (a + b)) in *.
  specialize (RN a GA). set (r := nearest (a + b)) in *. replace (a - (a + b)) with (- b) in RN by ring. rewrite Rabs_Ropp in RN.
  assert (BB : Rabs b < bpow radix2 (f - 55)).
  { unfold b. rewrite Rabs_mult, (Rabs_right (bpow radix2 e)) by (apply Rle_ge, bpow_ge_0).
    pose proof (pow_pos e). assert (bpow radix2 e <= bpow radix2 (f - 55)) by (apply bpow_le; lia). pose proof (Rabs_pos n). nra. }
  assert (RA : Rabs (r - a) < bpow radix2 (f - 54)).
  { replace (r - a) with ((r - (a + b)) + b) by ring. eapply Rle_lt_trans; [apply Rabs_triang|].
    replace (bpow radix2 (f - 54)) with (bpow radix2 (f - 55) + bpow radix2 (f - 55)); [lra|].
    replace (f - 54)%Z with (1 + (f - 55))%Z by lia. rewrite bpow_plus. change (bpow radix2 1) with 2. ring. }
  assert (AA : bpow radix2 (f - 1) <= Rabs a).
  { unfold a. rewrite Rabs_mult, (Rabs_right (bpow radix2 f)) by (apply Rle_ge, bpow_ge_0).
    replace (f - 1)%Z with (-1 + f)%Z by lia. rewrite bpow_plus, half_pow. apply Rmult_le_compat_r; [apply bpow_ge_0|lra]. }
  assert (P2 : bpow radix2 (f - 1) = bpow radix2 (f - 2) + bpow radix2 (f - 2)).
  { replace (f - 1)%Z with (1 + (f - 2))%Z by lia. rewrite bpow_plus. change (bpow radix2 1) with 2. ring. }
  assert (P3 : bpow radix2 (f - 54) <= bpow radix2 (f - 2)) by (apply bpow_le; lia).
  assert (AR : bpow radix2 (f - 2) <= Rabs r).
  { pose proof (Rabs_triang_inv a (a - r)) as T. replace (a - (a - r)) with r in T by ring.
    rewrite (Rabs_minus_sym a r) in T. lra. }
  destruct (multiple r (f - 2) GR AR) as (i & I). assert (A2 : bpow radix2 (f - 2) <= Rabs a) by (pose proof (bpow_gt_0 radix2 (f - 2)); lra).
  destruct (multiple a (f - 2) GA A2) as (j & J).
  replace (f - 2 - 52)%Z with (f - 54)%Z in I, J by lia.
  rewrite I, J, <- Rmult_minus_distr_r, <- minus_IZR, Rabs_mult, (Rabs_right (bpow radix2 _)), <- abs_IZR in RA
    by (apply Rle_ge, bpow_ge_0).
  assert (K : IZR (Z.abs (i - j)) < 1).
  { apply Rmult_lt_reg_r with (bpow radix2 (f - 54)); [apply bpow_gt_0|lra]. }
  apply lt_IZR in K. replace i with j in I by lia. rewrite I, J. reflexivity.
Qed.
