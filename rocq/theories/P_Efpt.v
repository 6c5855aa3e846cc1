(* C84: numbers with an extended exponent (extended_exponent_fpt). *)
From Coq Require Import Reals ZArith Bool Lra Lia Psatz.
From Flocq Require Import Core BinarySingleNaN.
From Verif Require Import EfptSpec EfptModel EfptProofs EfptRound.
Local Open Scope R_scope.

(* the operation ends, without undefined behaviour, in the exact result rounded to 53 digits:
   as accurate as one rounding, and with the sign of the exact result *)
Definition computes (o : outcome efpt) (exact : R) : Prop :=
  exists c, o = Val c /\ valid c /\ value c = nearest exact /\ near (value c) exact /\ sign_as (value c) exact.

Lemma computes_near : forall o c x, o = Val c -> valid c -> value c = nearest x -> computes o x.
Proof.
  intros o c x E V N. exists c. rewrite N. split; [assumption|]. split; [assumption|]. split; [reflexivity|].
  split; [|apply near_sign]; apply nearest_near.
Qed.
Lemma computes_make : forall v e x, is_finite v = true -> (-2147480000 <= e <= 2147480000)%Z -> B2R v = nearest x ->
  computes (make v e) (x * bpow radix2 e).
Proof.
  intros v e x F E N. destruct (make_fact v e F E) as (c & M & V & W).
  apply (computes_near _ c); try assumption. rewrite W, nearest_scale, N. reflexivity.
Qed.
Lemma exact_value : forall a x, value a = x -> value a = nearest x.
Proof. intros a x <-. symmetry. apply nearest_format, value_format. Qed.
Lemma exact_double : forall (v : fpt) x, B2R v = x -> B2R v = nearest x.
Proof. intros v x <-. symmetry. apply nearest_format, format_double, generic_format_B2R. Qed.
Lemma value_zero : forall a, value a = 0 <-> B2R (e_val a) = 0.
Proof.
  intros a. unfold value, scaled. split; intros H.
  - apply Rmult_integral in H as [H|H]; [assumption|]. pose proof (pow_pos (e_exp a)). lra.
  - rewrite H. ring.
Qed.
Lemma one_le : forall n, 1 <= bpow radix2 (Z.of_nat n).
Proof. intros n. change 1 with (bpow radix2 0). apply bpow_le. lia. Qed.
Lemma valid_small : forall a, valid a -> Rabs (B2R (e_val a)) < 1.
Proof. intros a (_ & [E|E]); [rewrite E, Rabs_R0; lra|lra]. Qed.

(* a number is made from a double and an exponent, and negated, exactly *)
Theorem C84_make : forall v e, is_finite v = true -> small e ->
  exists c, make v e = Val c /\ valid c /\ value c = scaled (B2R v) e.
Proof. intros v e F S. apply make_fact; [assumption|unfold small in S; lia]. Qed.
Theorem C84_opp : forall a, valid a -> small (e_exp a) ->
  exists c, e_opp a = Val c /\ valid c /\ value c = - value a.
Proof.
  intros a (F & V) S. destruct (make_fact (Bopp (e_val a)) (e_exp a)) as (c & M & W & E).
  - rewrite is_finite_Bopp. assumption.
  - unfold small in S; lia.
  - exists c. split; [exact M|]. split; [assumption|]. rewrite E, B2R_Bopp. unfold value, scaled. ring.
Qed.
(* the questions about the sign *)
Theorem C84_sign : forall a, valid a ->
  (e_is_pos a = true <-> 0 < value a) /\ (e_is_neg a = true <-> value a < 0) /\ (e_is_zero a = true <-> value a = 0).
Proof.
  intros a (F & V). pose proof (pow_pos (e_exp a)) as P. unfold e_is_pos, e_is_neg, e_is_zero.
  rewrite zero_eqb by assumption. rewrite 2!Bltb_correct by auto. cbn [B2R f_zero]. rewrite value_zero.
  unfold value, scaled. repeat split; intros H.
  - destruct (Rlt_bool_spec 0 (B2R (e_val a))); [|discriminate]. apply Rmult_lt_0_compat; assumption.
  - apply Rlt_bool_true. apply Rmult_lt_reg_r with (bpow radix2 (e_exp a)); lra.
  - destruct (Rlt_bool_spec (B2R (e_val a)) 0); [|discriminate]. nra.
  - apply Rlt_bool_true. apply Rmult_lt_reg_r with (bpow radix2 (e_exp a)); lra.
  - destruct (Req_bool_spec (B2R (e_val a)) 0); [assumption|discriminate].
  - apply Req_bool_true. assumption.
Qed.

(* a right operand that is zero must not have an exponent far above the one of the left operand *)
Definition zero_below (a b : efpt) : Prop := value a = 0 \/ value b <> 0 \/ (e_exp b <= e_exp a + 54)%Z.

Theorem C84_plus : forall a b, valid a -> valid b -> small (e_exp a) -> small (e_exp b) -> zero_below a b ->
  computes (e_plus a b) (value a + value b).
Proof.
  intros a b VA VB SA SB Z0. pose proof (valid_small a VA) as LA. pose proof (valid_small b VB) as LB.
  unfold small in *. destruct VA as (FA & VA'). destruct VB as (FB & VB').
  assert (VA : valid a) by (split; assumption). assert (VB : valid b) by (split; assumption).
  unfold e_plus, max_dif. rewrite 2!zero_eqb by assumption.
  destruct (Req_bool_spec (B2R (e_val a)) 0) as [A0|A0].
  { apply (computes_near _ b); try assumption; [reflexivity|]. apply exact_value.
    apply value_zero in A0. rewrite A0. ring. }
  assert (HA : / 2 <= Rabs (B2R (e_val a)) < 1) by (destruct VA'; [contradiction|assumption]).
  rewrite small_ok by lia. cbn [negb].
  destruct (Z.gtb_spec (e_exp b) (e_exp a + 54)) as [D1|D1].
  { assert (HB : / 2 <= Rabs (B2R (e_val b)) < 1).
    { destruct VB' as [E|E]; [|assumption]. exfalso. destruct Z0 as [Z0|[Z0|Z0]].
      - apply value_zero in Z0. contradiction.
      - apply Z0, value_zero. assumption.
      - lia. }
    apply (computes_near _ b); try assumption; [reflexivity|]. unfold value, scaled. rewrite Rplus_comm.
    apply drop_nearest; [apply format_double; (apply generic_format_opp; apply generic_format_B2R) || apply generic_format_B2R|assumption|lra|lia]. }
  destruct (Req_bool_spec (B2R (e_val b)) 0) as [B0|B0].
  { apply (computes_near _ a); try assumption; [reflexivity|]. apply exact_value.
    apply value_zero in B0. rewrite B0. ring. }
  assert (HB : / 2 <= Rabs (B2R (e_val b)) < 1) by (destruct VB'; [contradiction|assumption]).
  rewrite small_ok by lia. cbn [negb].
  destruct (Z.gtb_spec (e_exp a) (e_exp b + 54)) as [D2|D2].
  { apply (computes_near _ a); try assumption; [reflexivity|]. unfold value, scaled.
    apply drop_nearest; [apply format_double; (apply generic_format_opp; apply generic_format_B2R) || apply generic_format_B2R|assumption|lra|lia]. }
  assert (P60 : forall v d, Rabs v < 1 -> (0 <= d <= 54)%Z -> Rabs (v * bpow radix2 d) <= bpow radix2 60).
  { intros v d L D. rewrite Rabs_mult, (Rabs_right (bpow radix2 d)) by (apply Rle_ge, bpow_ge_0).
    assert (bpow radix2 d <= bpow radix2 60) by (apply bpow_le; lia). pose proof (pow_pos d). pose proof (Rabs_pos v). nra. }
  pose proof (one_le 60) as ONE. change (Z.of_nat 60) with 60%Z in ONE.
  rewrite Z.geb_leb. destruct (Z.leb_spec (e_exp b) (e_exp a)) as [L|L].
  - destruct (ldexp_exact (e_val a) (e_exp a - e_exp b) FA HA) as (X & FX); [lia|].
    destruct (bplus_fact _ (e_val b) FX FB) as (F & _ & N); [rewrite X; apply P60; [assumption|lia]|lra|].
    replace (value a + value b) with ((B2R (ldexp (e_val a) (e_exp a - e_exp b)) + B2R (e_val b)) * bpow radix2 (e_exp b)).
    + apply computes_make; [assumption|lia|]. rewrite N. apply nearest_sum; (apply generic_format_opp; apply generic_format_B2R) || apply generic_format_B2R.
    + rewrite X. unfold value, scaled. rewrite Rmult_plus_distr_r, Rmult_assoc, <- bpow_plus. do 3 f_equal. lia.
  - destruct (ldexp_exact (e_val b) (e_exp b - e_exp a) FB HB) as (X & FX); [lia|].
    destruct (bplus_fact _ (e_val a) FX FA) as (F & _ & N); [rewrite X; apply P60; [assumption|lia]|lra|].
    replace (value a + value b) with ((B2R (ldexp (e_val b) (e_exp b - e_exp a)) + B2R (e_val a)) * bpow radix2 (e_exp a)).
    + apply computes_make; [assumption|lia|]. rewrite N. apply nearest_sum; (apply generic_format_opp; apply generic_format_B2R) || apply generic_format_B2R.
    + rewrite X. unfold value, scaled. rewrite Rmult_plus_distr_r, Rmult_assoc, <- bpow_plus, Rplus_comm. do 3 f_equal. lia.
Qed.
Theorem C84_minus : forall a b, valid a -> valid b -> small (e_exp a) -> small (e_exp b) -> zero_below a b ->
  computes (e_minus a b) (value a - value b).
Proof.
  intros a b VA VB SA SB Z0. pose proof (valid_small a VA) as LA. pose proof (valid_small b VB) as LB.
  unfold small in *. destruct VA as (FA & VA'). destruct VB as (FB & VB').
  assert (VA : valid a) by (split; assumption). assert (VB : valid b) by (split; assumption).
  assert (FO : is_finite (Bopp (e_val b)) = true) by (rewrite is_finite_Bopp; assumption).
  unfold e_minus, max_dif. rewrite 2!zero_eqb by assumption.
  destruct (Req_bool_spec (B2R (e_val a)) 0) as [A0|A0].
  { apply value_zero in A0. rewrite A0. unfold value, scaled.
    replace (0 - B2R (e_val b) * bpow radix2 (e_exp b)) with (- B2R (e_val b) * bpow radix2 (e_exp b)) by ring.
    apply computes_make; [assumption|lia|]. apply exact_double, B2R_Bopp. }
  assert (HA : / 2 <= Rabs (B2R (e_val a)) < 1) by (destruct VA'; [contradiction|assumption]).
  rewrite small_ok by lia. cbn [negb].
  destruct (Z.gtb_spec (e_exp b) (e_exp a + 54)) as [D1|D1].
  { assert (HB : / 2 <= Rabs (B2R (e_val b)) < 1).
    { destruct VB' as [E|E]; [|assumption]. exfalso. destruct Z0 as [Z0|[Z0|Z0]].
      - apply value_zero in Z0. contradiction.
      - apply Z0, value_zero. assumption.
      - lia. }
    destruct (make_fact (Bopp (e_val b)) (e_exp b) FO) as (c & M & V & W); [lia|].
    apply (computes_near _ c); try assumption. rewrite W, B2R_Bopp. unfold value, scaled, Rminus.
    rewrite Rplus_comm, Ropp_mult_distr_l.
    apply drop_nearest; [apply format_double; (apply generic_format_opp; apply generic_format_B2R) || apply generic_format_B2R|rewrite Rabs_Ropp; assumption|lra|lia]. }
  destruct (Req_bool_spec (B2R (e_val b)) 0) as [B0|B0].
  { apply (computes_near _ a); try assumption; [reflexivity|]. apply exact_value.
    apply value_zero in B0. rewrite B0. ring. }
  assert (HB : / 2 <= Rabs (B2R (e_val b)) < 1) by (destruct VB'; [contradiction|assumption]).
  rewrite small_ok by lia. cbn [negb].
  destruct (Z.gtb_spec (e_exp a) (e_exp b + 54)) as [D2|D2].
  { apply (computes_near _ a); try assumption; [reflexivity|]. unfold value, scaled, Rminus.
    rewrite Ropp_mult_distr_l. apply drop_nearest; [apply format_double; (apply generic_format_opp; apply generic_format_B2R) || apply generic_format_B2R|assumption|rewrite Rabs_Ropp; lra|lia]. }
  assert (P60 : forall v d, Rabs v < 1 -> (0 <= d <= 54)%Z -> Rabs (v * bpow radix2 d) <= bpow radix2 60).
  { intros v d L D. rewrite Rabs_mult, (Rabs_right (bpow radix2 d)) by (apply Rle_ge, bpow_ge_0).
    assert (bpow radix2 d <= bpow radix2 60) by (apply bpow_le; lia). pose proof (pow_pos d). pose proof (Rabs_pos v). nra. }
  pose proof (one_le 60) as ONE. change (Z.of_nat 60) with 60%Z in ONE.
  rewrite Z.geb_leb. destruct (Z.leb_spec (e_exp b) (e_exp a)) as [L|L].
  - destruct (ldexp_exact (e_val a) (e_exp a - e_exp b) FA HA) as (X & FX); [lia|].
    destruct (bopp_minus _ (e_val b) FX FB) as (F & _ & N); [rewrite X; apply P60; [assumption|lia]|lra|].
    replace (value a - value b) with ((B2R (ldexp (e_val a) (e_exp a - e_exp b)) - B2R (e_val b)) * bpow radix2 (e_exp b)).
    + apply computes_make; [assumption|lia|]. rewrite N. apply nearest_sum; (apply generic_format_opp; apply generic_format_B2R) || apply generic_format_B2R.
    + rewrite X. unfold value, scaled. rewrite Rmult_minus_distr_r, Rmult_assoc, <- bpow_plus. do 3 f_equal. lia.
  - assert (HO : / 2 <= Rabs (B2R (Bopp (e_val b))) < 1) by (rewrite B2R_Bopp, Rabs_Ropp; assumption).
    destruct (ldexp_exact (Bopp (e_val b)) (e_exp b - e_exp a) FO HO) as (X & FX); [lia|].
    destruct (bplus_fact _ (e_val a) FX FA) as (F & _ & N); [rewrite X; apply P60; [lra|lia]|lra|].
    replace (value a - value b) with ((B2R (ldexp (Bopp (e_val b)) (e_exp b - e_exp a)) + B2R (e_val a)) * bpow radix2 (e_exp a)).
    + apply computes_make; [assumption|lia|]. rewrite N. apply nearest_sum; (apply generic_format_opp; apply generic_format_B2R) || apply generic_format_B2R.
    + rewrite X, B2R_Bopp. unfold value, scaled.
      rewrite Rmult_plus_distr_r, Rmult_assoc, <- bpow_plus, Rplus_comm.
      replace (e_exp b - e_exp a + e_exp a)%Z with (e_exp b) by lia. ring.
Qed.

Lemma normal_range : forall x, / 4 <= Rabs x <= 4 -> rnd x = nearest x /\ Rlt_bool (Rabs (rnd x)) (bpow radix2 1024) = true.
Proof.
  intros x (L & H). assert (N : rnd x = nearest x).
  { apply nearest_normal. right. assert (bpow radix2 (-1022) <= bpow radix2 (-2)) by (apply bpow_le; lia).
    replace (bpow radix2 (-2)) with (/ 4) in * by (cbn; lra). lra. }
  split; [assumption|]. apply near_bound with x; [rewrite N; apply nearest_near|].
  assert (bpow radix2 2 <= bpow radix2 100) by (apply bpow_le; lia). replace (bpow radix2 2) with 4 in * by (cbn; lra). lra.
Qed.
Lemma zero_range : rnd 0 = nearest 0 /\ Rlt_bool (Rabs (rnd 0)) (bpow radix2 1024) = true.
Proof.
  assert (N : rnd 0 = nearest 0) by (apply nearest_normal; left; reflexivity). split; [assumption|].
  apply near_bound with 0; [rewrite N; apply nearest_near|]. rewrite Rabs_R0. apply bpow_ge_0.
Qed.

Theorem C84_mult : forall a b, valid a -> valid b -> small (e_exp a) -> small (e_exp b) ->
  computes (e_mult a b) (value a * value b).
Proof.
  intros a b (FA & VA) (FB & VB) SA SB. unfold small in *. unfold e_mult. rewrite small_ok by lia.
  assert (R : rnd (B2R (e_val a) * B2R (e_val b)) = nearest (B2R (e_val a) * B2R (e_val b))
    /\ Rlt_bool (Rabs (rnd (B2R (e_val a) * B2R (e_val b)))) (bpow radix2 1024) = true).
  { destruct VA as [E|HA]; [rewrite E, Rmult_0_l; apply zero_range|].
    destruct VB as [E|HB]; [rewrite E, Rmult_0_r; apply zero_range|].
    apply normal_range. rewrite Rabs_mult. split; nra. }
  destruct R as (N & B). pose proof (Bmult_correct 53 1024 _ _ mode_NE (e_val a) (e_val b)) as C.
  cbn [round_mode] in C. rewrite B in C. destruct C as (C1 & C2 & _). rewrite FA, FB in C2. rewrite <- C1 in N.
  replace (value a * value b) with (B2R (e_val a) * B2R (e_val b) * bpow radix2 (e_exp a + e_exp b)).
  - apply computes_make; try assumption. lia.
  - unfold value, scaled. rewrite bpow_plus. ring.
Qed.
Theorem C84_div : forall a b, valid a -> valid b -> small (e_exp a) -> small (e_exp b) -> value b <> 0 ->
  computes (e_div a b) (value a / value b).
Proof.
  intros a b (FA & VA) (FB & VB) SA SB NZ. unfold small in *. unfold e_div. rewrite small_ok by lia.
  assert (B0 : B2R (e_val b) <> 0) by (intros E; apply NZ, value_zero; assumption).
  destruct VB as [E|HB]; [contradiction|].
  assert (R : rnd (B2R (e_val a) / B2R (e_val b)) = nearest (B2R (e_val a) / B2R (e_val b))
    /\ Rlt_bool (Rabs (rnd (B2R (e_val a) / B2R (e_val b)))) (bpow radix2 1024) = true).
  { destruct VA as [E|HA]; [rewrite E; unfold Rdiv; rewrite Rmult_0_l; apply zero_range|].
    apply normal_range. unfold Rdiv. rewrite Rabs_mult, Rabs_inv.
    set (x := Rabs (B2R (e_val a))) in *. set (y := Rabs (B2R (e_val b))) in *.
    assert (1 <= / y <= 2).
    { assert (y * / y = 1) by (apply Rinv_r; lra). split; nra. }
    split; nra. }
  destruct R as (N & B). pose proof (Bdiv_correct 53 1024 _ _ mode_NE (e_val a) (e_val b) B0) as C.
  cbn [round_mode] in C. rewrite B in C. destruct C as (C1 & C2 & _). rewrite FA in C2. rewrite <- C1 in N.
  replace (value a / value b) with (B2R (e_val a) / B2R (e_val b) * bpow radix2 (e_exp a - e_exp b)).
  - apply computes_make; try assumption. lia.
  - unfold value, scaled, Z.sub. rewrite bpow_plus, bpow_opp. field.
    split; [apply Rgt_not_eq, bpow_gt_0|assumption].
Qed.
(* the square root *)
Lemma sqrt_part : forall v k, is_finite v = true -> B2R v = 0 \/ / 4 <= B2R v <= 4 -> (-2147480000 <= k <= 2147480000)%Z ->
  computes (make (Bsqrt mode_NE v) k) (sqrt (B2R v) * bpow radix2 k).
Proof.
  intros v k F V K. pose proof (Bsqrt_correct 53 1024 _ _ mode_NE v) as (C1 & C2 & _).
  apply computes_make; try assumption.
  - rewrite C2. destruct v as [s| | |[|] m e H]; try reflexivity; try discriminate F. exfalso.
    assert (B2R (B754_finite true m e H : fpt) < 0); [|lra].
    cbn [B2R]. apply F2R_lt_0. reflexivity.
  - rewrite C1. destruct V as [E|E].
    + rewrite E, sqrt_0. apply zero_range.
    + apply normal_range. assert (S : / 2 <= sqrt (B2R v) <= 2).
      { split.
        - replace (/ 2) with (sqrt (/ 4)); [apply sqrt_le_1; lra|].
          replace (/ 4) with (/ 2 * / 2) by field. apply sqrt_square. lra.
        - replace 2 with (sqrt 4); [apply sqrt_le_1; lra|].
          replace 4 with (2 * 2) by ring. apply sqrt_square. lra. }
      rewrite Rabs_right; lra.
Qed.
Lemma sqrt_pow : forall k, sqrt (bpow radix2 (2 * k)) = bpow radix2 k.
Proof.
  intros k. replace (2 * k)%Z with (k + k)%Z by lia. rewrite bpow_plus. apply sqrt_square, bpow_ge_0.
Qed.
Lemma two_value : B2R f_two = 2 /\ is_finite f_two = true.
Proof. split; [|reflexivity]. vm_compute. lra. Qed.
Theorem C84_sqrt : forall a, valid a -> small (e_exp a) -> 0 <= value a -> computes (e_sqrt a) (sqrt (value a)).
Proof.
  intros a (F & V) S P. unfold small in S. pose proof (pow_pos (e_exp a)) as PP.
  assert (V2 : B2R (e_val a) = 0 \/ / 2 <= B2R (e_val a) < 1).
  { destruct V as [E|E]; [left; assumption|right]. unfold value, scaled in P.
    destruct (Rle_or_lt 0 (B2R (e_val a))) as [L|L]; [rewrite Rabs_right in E; lra|nra]. }
  assert (V0 : 0 <= B2R (e_val a)) by lra.
  unfold e_sqrt. rewrite 2!Z.shiftr_div_pow2 by lia. change (2 ^ 1)%Z with 2%Z.
  destruct (Z.odd (e_exp a)) eqn:O.
  - destruct two_value as (T2 & FT). pose proof (Bmult_correct 53 1024 _ _ mode_NE (e_val a) f_two) as C.
    rewrite T2 in C. cbn [round_mode] in C.
    assert (G : generic_format radix2 fe (B2R (e_val a) * 2)).
    { destruct V2 as [E|E]; [rewrite E, Rmult_0_l; apply generic_format_0|].
      destruct (ldexp_exact (e_val a) 1 F) as (X & _); [rewrite Rabs_right; lra|lia|].
      change (bpow radix2 1) with 2 in X. rewrite <- X. apply generic_format_B2R. }
    rewrite (round_generic radix2 fe ZnearestE _ G) in C.
    assert (Rlt_bool (Rabs (B2R (e_val a) * 2)) (bpow radix2 1024) = true) as RB.
    { apply near_bound with (B2R (e_val a) * 2); [apply near_refl|].
      assert (bpow radix2 1 <= bpow radix2 100) by (apply bpow_le; lia). change (bpow radix2 1) with 2 in *.
      rewrite Rabs_right; lra. }
    rewrite RB in C. destruct C as (C1 & C2 & _). rewrite F, FT in C2. cbn [andb] in C2.
    replace (sqrt (value a)) with (sqrt (B2R (Bmult mode_NE (e_val a) f_two)) * bpow radix2 ((e_exp a - 1) / 2)).
    + apply sqrt_part; [assumption|rewrite C1; destruct V2; [left; lra|right; lra]|].
      pose proof (Z.div_mod (e_exp a - 1) 2 ltac:(lia)). pose proof (Z.mod_pos_bound (e_exp a - 1) 2 ltac:(lia)). lia.
    + rewrite C1, <- sqrt_pow, <- sqrt_mult; [|lra|apply bpow_ge_0]. f_equal. unfold value, scaled.
      rewrite Zodd_mod in O. apply Zeq_bool_eq in O.
      replace (e_exp a) with (1 + 2 * ((e_exp a - 1) / 2))%Z at 2.
      * rewrite bpow_plus. change (bpow radix2 1) with 2. ring.
      * pose proof (Z.div_mod (e_exp a) 2 ltac:(lia)) as D. rewrite O in D.
        assert (e_exp a - 1 = (e_exp a / 2) * 2)%Z as -> by lia. rewrite Z.div_mul by lia. lia.
  - replace (sqrt (value a)) with (sqrt (B2R (e_val a)) * bpow radix2 (e_exp a / 2)).
    + apply sqrt_part; [assumption|destruct V2; [left; lra|right; lra]|].
      pose proof (Z.div_mod (e_exp a) 2 ltac:(lia)). pose proof (Z.mod_pos_bound (e_exp a) 2 ltac:(lia)). lia.
    + rewrite <- sqrt_pow, <- sqrt_mult; [|lra|apply bpow_ge_0]. f_equal. unfold value, scaled.
      rewrite <- Z.negb_even in O. apply negb_false_iff in O. apply Zeven_bool_iff, Zeven_ex_iff in O.
      destruct O as (q & ->). replace (2 * q / 2)%Z with q; [reflexivity|]. rewrite Z.mul_comm, Z.div_mul by lia. reflexivity.
Qed.
(* back to a double: the correctly rounded value, where doubles reach *)
Theorem C84_d : forall a, valid a -> Rabs (rnd (value a)) < bpow radix2 1024 ->
  is_finite (e_d a) = true /\ B2R (e_d a) = rnd (value a).
Proof.
  intros a (F & V) B. pose proof (Bldexp_correct 53 1024 _ _ mode_NE (e_val a) (e_exp a)) as C.
  change (B2R (e_val a) * bpow radix2 (e_exp a)) with (value a) in C. cbn [round_mode] in C.
  rewrite (Rlt_bool_true _ _ B) in C. destruct C as (C1 & C2 & _). unfold e_d, ldexp. rewrite C2. split; assumption.
Qed.
(* division by zero and the root of a negative number leave the numbers *)
Theorem C84_special : (forall a b, valid a -> valid b -> small (e_exp a) -> small (e_exp b) -> value b = 0 -> e_div a b = Special)
  /\ (forall a, valid a -> value a < 0 -> e_sqrt a = Special).
Proof.
  split.
  - intros a b (FA & _) (FB & _) SA SB E. apply value_zero in E. unfold small in *. unfold e_div.
    rewrite small_ok by lia. unfold make.
    destruct (e_val b) as [s| | |s m e H]; try discriminate FB.
    + destruct (e_val a) as [s'| | |s' m' e' H']; try discriminate FA; reflexivity.
    + exfalso. revert E. apply F2R_neq_0. destruct s; discriminate.
  - intros a (F & V) N. pose proof (pow_pos (e_exp a)) as P. unfold value, scaled in N.
    assert (N' : B2R (e_val a) < 0) by nra. destruct V as [E|E]; [lra|].
    assert (K : forall v : fpt, is_finite v = true -> B2R v < 0 -> forall k, make (Bsqrt mode_NE v) k = Special).
    { intros v Fv L k. unfold make. destruct (Bsqrt_correct 53 1024 _ _ mode_NE v) as (_ & C2 & _). rewrite C2.
      destruct v as [s| | |[|] m e H]; try discriminate Fv; try reflexivity; cbn [B2R] in L.
      - lra.
      - exfalso. assert (0 < F2R ({| Fnum := SpecFloat.cond_Zopp false (Z.pos m); Fexp := e |} : float radix2)); [apply F2R_gt_0; reflexivity|lra]. }
    unfold e_sqrt. destruct (Z.odd (e_exp a)); [|apply K; assumption].
    destruct two_value as (T2 & FT). pose proof (Bmult_correct 53 1024 _ _ mode_NE (e_val a) f_two) as C.
    rewrite T2 in C. cbn [round_mode] in C.
    destruct (normal_range (B2R (e_val a) * 2)) as (N1 & N2).
    { rewrite Rabs_mult, (Rabs_right 2) by lra. lra. }
    rewrite N2 in C. destruct C as (C1 & C2 & _). rewrite F, FT in C2. apply K; [assumption|].
    rewrite C1, N1. pose proof (near_sign _ _ (nearest_near (B2R (e_val a) * 2))) as SG. apply SG. lra.
Qed.
(* what happens when the right operand is a zero with an exponent far above: the left operand is lost *)
Theorem C84_zero_above : forall a b, valid a -> valid b -> small (e_exp a) -> small (e_exp b) ->
  value a <> 0 -> value b = 0 -> (e_exp b > e_exp a + 54)%Z ->
  e_plus a b = Val b /\ exists c, e_minus a b = Val c /\ value c = 0.
Proof.
  intros a b (FA & VA) (FB & VB) SA SB A0 B0 D. unfold small in *. unfold e_plus, e_minus, max_dif.
  rewrite zero_eqb by assumption.
  rewrite (Req_bool_false (B2R (e_val a))) by (intros E; apply A0, value_zero; assumption).
  rewrite small_ok by lia. cbn [negb]. replace (e_exp b >? e_exp a + 54)%Z with true by (symmetry; apply Z.gtb_lt; lia).
  split; [reflexivity|]. destruct (make_fact (Bopp (e_val b)) (e_exp b)) as (c & M & V & W).
  - rewrite is_finite_Bopp. assumption.
  - lia.
  - exists c. split; [assumption|]. rewrite W, B2R_Bopp. apply value_zero in B0. rewrite B0. ring.
Qed.

(* ---------- concrete numbers ---------- *)
Definition num (m e : Z) : fpt := binary_normalize 53 1024 prec53 emax1024 mode_NE m e false.
Definition got (o : outcome efpt) : efpt := match o with Val c => c | _ => mk_efpt f_zero 0 end.
Definition e_one : efpt := got (make (num 1 0) 0).
Definition e_tiny : efpt := got (make (num 1 (-100)) 0).
Definition e_huge : efpt := got (make (num 1 200) 0).
Definition e_nil : efpt := got (make f_zero 0).
Definition e_diff : efpt := got (e_minus e_huge e_huge).
Definition e_far : efpt := got (make (num 1 0) 2147483600).

(* (in the proofs only booleans and exponents are computed: the numbers hold proof terms) *)
Definition is_val (o : outcome efpt) : bool := match o with Val _ => true | _ => false end.
Lemma got_val : forall o, is_val o = true -> o = Val (got o).
Proof. intros [c| |] H; [reflexivity|discriminate H..]. Qed.
Ltac small_exp := split; vm_compute; discriminate.

Lemma made : forall v e, is_finite v = true -> small e -> is_val (make v e) = true ->
  valid (got (make v e)) /\ value (got (make v e)) = scaled (B2R v) e.
Proof.
  intros v e F S M. destruct (C84_make v e F S) as (d & M' & V & W). rewrite M'. cbn [got]. split; assumption.
Qed.
Lemma nil_made : valid e_nil /\ value e_nil = 0.
Proof.
  destruct (made f_zero 0) as (V & W); [reflexivity|unfold small; lia|reflexivity|].
  split; [exact V|]. unfold e_nil. rewrite W. unfold scaled, f_zero. cbn [B2R]. ring.
Qed.
Lemma made_pos : forall v, is_finite v = true -> e_is_pos (got (make v 0)) = true -> is_val (make v 0) = true ->
  valid (got (make v 0)) /\ 0 < value (got (make v 0)).
Proof.
  intros v F P M. destruct (made v 0 F) as (V & W); [unfold small; lia|assumption|]. split; [assumption|].
  apply C84_sign; assumption.
Qed.
Lemma one_pos : valid e_one /\ 0 < value e_one.
Proof. apply (made_pos (num 1 0)); vm_compute; reflexivity. Qed.
Lemma one_made : value e_one = 1.
Proof.
  unfold e_one. destruct (made (num 1 0) 0) as (V & W); [vm_compute; reflexivity|unfold small; lia|vm_compute; reflexivity|].
  rewrite W. unfold scaled, num. pose proof (binary_normalize_correct 53 1024 prec53 emax1024 mode_NE 1 0 false) as C.
  assert (E : F2R ({| Fnum := 1; Fexp := 0 |} : float radix2) = 1) by (unfold F2R; cbn; lra).
  cbv zeta in C. rewrite E in C. assert (G : generic_format radix2 fe 1).
  { change 1 with (bpow radix2 0). apply generic_format_bpow. vm_compute. discriminate. }
  rewrite (round_generic radix2 fe _ _ G), Rabs_R1, Rlt_bool_true in C.
  - destruct C as (C & _). rewrite C. change (bpow radix2 0) with 1. ring.
  - change 1 with (bpow radix2 0). apply bpow_lt. lia.
Qed.
Lemma huge_pos : valid e_huge /\ 0 < value e_huge.
Proof. apply (made_pos (num 1 200)); vm_compute; reflexivity. Qed.
Lemma tiny_pos : valid e_tiny /\ 0 < value e_tiny.
Proof. apply (made_pos (num 1 (-100))); vm_compute; reflexivity. Qed.

(* zero is added to 2^-100, or subtracted from it, and the number is lost: zero has the exponent 0 *)
Theorem C84_plus_zero_refuted : exists a b, make (num 1 (-100)) 0 = Val a /\ make f_zero 0 = Val b /\
  0 < value a /\ value b = 0 /\
  exists c d, e_plus a b = Val c /\ value c = 0 /\ e_minus a b = Val d /\ value d = 0.
Proof.
  destruct nil_made as (VN & WN). destruct tiny_pos as (V & P).
  exists e_tiny, e_nil. split; [apply got_val; vm_compute; reflexivity|]. split; [apply got_val; reflexivity|].
  split; [assumption|]. split; [assumption|].
  destruct (C84_zero_above e_tiny e_nil V VN) as (E1 & c & E2 & E3).
  - small_exp.
  - small_exp.
  - lra.
  - assumption.
  - vm_compute; reflexivity.
  - exists e_nil, c. split; [assumption|]. split; [assumption|]. split; assumption.
Qed.
(* 1 + (x - x) is 0 for a large x, although (x - x) + 1 is 1 *)
Theorem C84_cancel_refuted : exists one x d c, make (num 1 0) 0 = Val one /\ make (num 1 200) 0 = Val x /\
  e_minus x x = Val d /\ value one = 1 /\ value d = 0 /\ e_plus one d = Val c /\ value c = 0 /\ e_plus d one = Val one.
Proof.
  destruct one_pos as (VO & WO). destruct huge_pos as (V & P).
  assert (SH : small (e_exp e_huge)) by small_exp.
  destruct (C84_minus e_huge e_huge V V SH SH) as (d & E & VD & _ & _ & SG); [right; left; lra|].
  assert (D : d = e_diff) by (unfold e_diff; rewrite E; reflexivity). subst d. rewrite Rminus_diag_eq in SG by reflexivity.
  assert (Z0 : value e_diff = 0) by (apply SG; reflexivity).
  exists e_one, e_huge, e_diff, e_diff. split; [apply got_val; vm_compute; reflexivity|].
  split; [apply got_val; vm_compute; reflexivity|].
  split; [exact E|]. split; [apply one_made|]. split; [assumption|].
  split; [|split; [assumption|]].
  - refine (proj1 (C84_zero_above e_one e_diff VO VD _ _ _ Z0 _)).
    + small_exp.
    + small_exp.
    + lra.
    + vm_compute; reflexivity.
  - unfold e_plus. replace (Beqb (e_val e_diff) f_zero) with true; [reflexivity|]. symmetry. apply (C84_sign e_diff VD). assumption.
Qed.
(* 1 * sqrt 1 + 0 * sqrt (2^200), the operations of robust_sqrt_expr::eval2
   (voronoi_robust_fpt.hpp 440-455), gives 0 *)
Theorem C84_roots_refuted : exists a z b r s p q c, make (num 1 0) 0 = Val a /\ make f_zero 0 = Val z /\ make (num 1 200) 0 = Val b /\
  e_sqrt a = Val r /\ e_sqrt b = Val s /\ e_mult a r = Val p /\ e_mult z s = Val q /\
  e_plus p q = Val c /\ near (value r) 1 /\ 0 < value p /\ value q = 0 /\ value c = 0.
Proof.
  destruct one_pos as (VO & WO). destruct nil_made as (VN & WN). destruct huge_pos as (V & P).
  destruct (C84_sqrt e_huge V) as (s & Es & Vs & _); [small_exp|lra|].
  destruct (C84_sqrt e_one VO) as (r & Er & Vr & _ & Nr & SGr); [small_exp|lra|]. rewrite one_made, sqrt_1 in Nr, SGr.
  assert (Is : s = got (e_sqrt e_huge)) by (rewrite Es; reflexivity).
  assert (Ir : r = got (e_sqrt e_one)) by (rewrite Er; reflexivity).
  assert (Ss : small (e_exp s)) by (rewrite Is; small_exp).
  assert (Sr : small (e_exp r)) by (rewrite Ir; small_exp).
  destruct (C84_mult e_nil s VN Vs) as (q & Eq & Vq & _ & _ & SGq); [small_exp|assumption|].
  destruct (C84_mult e_one r VO Vr) as (p & Ep & Vp & _ & _ & SGp); [small_exp|assumption|].
  assert (Iq : q = got (e_mult e_nil (got (e_sqrt e_huge)))) by (rewrite <- Is, Eq; reflexivity).
  assert (Ip : p = got (e_mult e_one (got (e_sqrt e_one)))) by (rewrite <- Ir, Ep; reflexivity).
  assert (Q0 : value q = 0) by (apply SGq; rewrite WN; ring).
  assert (P0 : 0 < value p).
  { apply SGp. rewrite one_made. assert (0 < value r) by (apply SGr; lra). lra. }
  exists e_one, e_nil, e_huge, r, s, p, q, q.
  split; [apply got_val; vm_compute; reflexivity|]. split; [apply got_val; reflexivity|].
  split; [apply got_val; vm_compute; reflexivity|]. split; [assumption|]. split; [assumption|].
  split; [assumption|]. split; [assumption|]. split; [|split; [assumption|split; [assumption|split; assumption]]].
  refine (proj1 (C84_zero_above p q Vp Vq _ _ _ Q0 _)).
  - rewrite Ip. small_exp.
  - rewrite Iq. small_exp.
  - lra.
  - rewrite Ip, Iq. vm_compute; reflexivity.
Qed.
(* near the largest int the exponents overflow, in operations that need no such exponent *)
Theorem C84_exponent_refuted : exists a, make (num 1 0) 2147483600 = Val a /\ e_plus a a = Overflow /\ e_minus a a = Overflow.
Proof. exists e_far. split; [apply got_val; vm_compute; reflexivity|]. split; vm_compute; reflexivity. Qed.

(* the hypotheses are met: a product that a double cannot hold, a difference, its root, and the way back *)
Example C84_demo :
  let x := got (make (num 3 700) 0) in let y := got (make (num (-5) 690) 0) in
  let p := got (e_mult x x) in let q := got (e_mult y y) in let s := got (e_minus p q) in let r := got (e_sqrt s) in
  make (num 3 700) 0 = Val x /\ make (num (-5) 690) 0 = Val y /\
  is_finite (Bmult mode_NE (num 3 700) (num 3 700)) = false /\
  e_mult x x = Val p /\ e_mult y y = Val q /\ e_minus p q = Val s /\ e_sqrt s = Val r /\
  e_exp p = 1404%Z /\ e_exp q = 1385%Z /\ e_is_pos s = true /\ is_finite (e_d r) = true /\
  e_is_neg (got (e_opp r)) = true /\ is_val (e_div s p) = true.
Proof.
  cbv zeta. repeat split; try (apply got_val; vm_compute; reflexivity); vm_compute; reflexivity.
Qed.
Example C84_demo_conditions : let x := got (make (num 3 700) 0) in let y := got (make (num (-5) 690) 0) in
  valid x /\ valid y /\ small (e_exp x) /\ small (e_exp y) /\ zero_below x y /\ computes (e_plus x y) (value x + value y).
Proof.
  cbv zeta. set (x := got (make (num 3 700) 0)). set (y := got (make (num (-5) 690) 0)).
  destruct (made (num 3 700) 0) as (VX & _); [vm_compute; reflexivity|unfold small; lia|vm_compute; reflexivity|].
  destruct (made (num (-5) 690) 0) as (VY & _); [vm_compute; reflexivity|unfold small; lia|vm_compute; reflexivity|].
  fold x in VX. fold y in VY.
  assert (SX : small (e_exp x)) by small_exp.
  assert (SY : small (e_exp y)) by small_exp.
  assert (ZB : zero_below x y) by (right; right; vm_compute; discriminate).
  split; [assumption|]. split; [assumption|]. split; [assumption|]. split; [assumption|]. split; [assumption|].
  apply C84_plus; assumption.
Qed.

Print Assumptions C84_make.
Print Assumptions C84_opp.
Print Assumptions C84_sign.
Print Assumptions C84_plus.
Print Assumptions C84_minus.
Print Assumptions C84_mult.
Print Assumptions C84_div.
Print Assumptions C84_sqrt.
Print Assumptions C84_d.
Print Assumptions C84_special.
Print Assumptions C84_zero_above.
Print Assumptions C84_plus_zero_refuted.
Print Assumptions C84_cancel_refuted.
Print Assumptions C84_roots_refuted.
Print Assumptions C84_exponent_refuted.
Print Assumptions C84_demo.
Print Assumptions C84_demo_conditions.
