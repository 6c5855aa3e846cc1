(* C85: conversion of big integers (extended_int) to floating point numbers. *)
From Coq Require Import Reals ZArith Bool List Lra Lia Psatz.
From Flocq Require Import Core BinarySingleNaN Mult_error.
From Verif Require Import Base Set90Spec Set90Model XIntSpec XIntModel XIntProofs EfptSpec EfptModel EfptProofs XConvSpec XConvModel XConvProofs P_Efpt.
From Coq Require Import Lra.
Import ListNotations.
Local Open Scope R_scope.

Lemma close_sign : forall v z, close3 v z -> sign_as v (IZR z).
Proof.
  intros v z H. unfold close3 in H. assert (U : 0 < 3 * bpow radix2 (-53) < / 2).
  { pose proof (bpow_gt_0 radix2 (-53)). assert (bpow radix2 (-53) < bpow radix2 (-3)) by (apply bpow_lt; lia).
    replace (bpow radix2 (-3)) with (/ 8) in * by (cbn; lra). lra. }
  set (u := 3 * bpow radix2 (-53)) in *. set (x := IZR z) in *. unfold sign_as.
  destruct (Rtotal_order x 0) as [L|[E|G]].
  - rewrite (Rabs_left x L) in H. apply Rabs_le_inv in H. assert (u * - x < / 2 * - x) by (apply Rmult_lt_compat_r; lra).
    repeat split; intros; lra.
  - rewrite E in *. rewrite Rabs_R0, Rmult_0_r, Rminus_0_r in H.
    assert (v = 0) by (apply Rabs_le_inv in H; lra). repeat split; intros; lra.
  - rewrite (Rabs_right x) in H by lra. apply Rabs_le_inv in H. assert (u * x < / 2 * x) by (apply Rmult_lt_compat_r; lra).
    repeat split; intros; lra.
Qed.
Lemma p_fact : forall N x, x_wf N x -> x_canonical x ->
  is_finite (fst (x_p x)) = true /\ (B2R (fst (x_p x)) = 0 \/ / 2 <= Rabs (B2R (fst (x_p x))))
  /\ (0 <= snd (x_p x) <= 32 * Z.of_nat N)%Z
  /\ close3 (scaled (B2R (fst (x_p x))) (snd (x_p x))) (x_value x)
  /\ ((Z.abs (x_value x) <= 2 ^ 53)%Z -> snd (x_p x) = 0%Z /\ B2R (fst (x_p x)) = IZR (x_value x)).
Proof.
  intros N x X C. pose proof (x_value_abs N x X) as VA. destruct X as (CL & LN & D).
  destruct (digits_fact (x_chunks x) D C) as (F & V & S & A & E).
  pose proof (value_range _ D) as VR. assert (V0 : 0 <= IZR (XIntSpec.value (x_chunks x))) by (apply IZR_le; lia).
  assert (ZZ : (x_count x = 0)%Z -> x_chunks x = []) by (intros Q; destruct (x_chunks x); [reflexivity|cbn [length] in CL; lia]).
  unfold x_p. fold (digits_p (x_chunks x)). cbv zeta.
  destruct (Z.ltb_spec (x_count x) 0) as [L|L]; cbn [fst snd].
  - rewrite (x_value_neg x) in * by lia. rewrite is_finite_Bopp, B2R_Bopp, Rabs_Ropp.
    split; [assumption|]. split; [destruct V as [V|V]; [left; rewrite V; ring|right; rewrite Rabs_right; lra]|].
    split; [lia|]. split.
    + unfold close3. rewrite opp_IZR, Rabs_Ropp, (Rabs_right (IZR _)) by lra. unfold scaled in *.
      rewrite <- Ropp_mult_distr_l, <- Rabs_Ropp. replace (- (- (B2R (fst (digits_p (x_chunks x))) * bpow radix2 (snd (digits_p (x_chunks x))))
        - - IZR (XIntSpec.value (x_chunks x)))) with (B2R (fst (digits_p (x_chunks x))) * bpow radix2 (snd (digits_p (x_chunks x)))
        - IZR (XIntSpec.value (x_chunks x))) by ring. assumption.
    + intros B. destruct E as (E1 & E2); [lia|]. rewrite E2, opp_IZR. split; [assumption|reflexivity].
  - assert (XV : x_value x = XIntSpec.value (x_chunks x)).
    { destruct (Z.eq_dec (x_count x) 0) as [Q|Q]; [unfold x_value; rewrite ZZ, Q by assumption; reflexivity|].
      apply x_value_pos. lia. }
    rewrite XV in *. split; [assumption|].
    split; [destruct V as [V|V]; [left; assumption|right; rewrite Rabs_right; lra]|].
    split; [lia|]. split; [unfold close3; rewrite (Rabs_right (IZR _)) by lra; assumption|].
    intros B. apply E. lia.
Qed.

(* a big integer as a pair of a double and an exponent *)
Theorem C85_pair : forall N x, x_wf N x -> x_canonical x ->
  is_finite (fst (x_p x)) = true /\ (0 <= snd (x_p x) <= 32 * Z.of_nat N)%Z /\
  close3 (scaled (B2R (fst (x_p x))) (snd (x_p x))) (x_value x) /\
  sign_as (scaled (B2R (fst (x_p x))) (snd (x_p x))) (IZR (x_value x)) /\
  ((Z.abs (x_value x) <= 2 ^ 53)%Z -> scaled (B2R (fst (x_p x))) (snd (x_p x)) = IZR (x_value x)).
Proof.
  intros N x X C. destruct (p_fact N x X C) as (F & _ & S & A & E). split; [assumption|]. split; [assumption|].
  split; [assumption|]. split; [apply close_sign; assumption|]. intros B. destruct (E B) as (-> & ->).
  unfold scaled. change (bpow radix2 0) with 1. ring.
Qed.
(* as a number with an extended exponent *)
Theorem C85_efpt : forall N x, x_wf N x -> x_canonical x -> (Z.of_nat N <= 10000000)%Z ->
  exists c, x_efpt x = Val c /\ valid c /\ close3 (EfptProofs.value c) (x_value x) /\
    sign_as (EfptProofs.value c) (IZR (x_value x)) /\
    ((Z.abs (x_value x) <= 2 ^ 53)%Z -> EfptProofs.value c = IZR (x_value x)).
Proof.
  intros N x X C L. destruct (C85_pair N x X C) as (F & S & A & G & E).
  destruct (make_fact (fst (x_p x)) (snd (x_p x)) F) as (c & M & V & W); [lia|].
  exists c. split; [exact M|]. split; [assumption|]. rewrite W. split; [assumption|]. split; assumption.
Qed.
(* as a double *)
Theorem C85_double : forall N x, x_wf N x -> x_canonical x -> (N <= 31)%nat ->
  is_finite (x_d x) = true /\ close3 (B2R (x_d x)) (x_value x) /\ sign_as (B2R (x_d x)) (IZR (x_value x)) /\
  ((Z.abs (x_value x) <= 2 ^ 53)%Z -> B2R (x_d x) = IZR (x_value x)).
Proof.
  intros N x X C L. destruct (p_fact N x X C) as (F & V & S & A & E).
  pose proof (C85_pair N x X C) as (_ & _ & _ & G & E').
  unfold x_d, ldexp. pose proof (Bldexp_correct 53 1024 _ _ mode_NE (fst (x_p x)) (snd (x_p x))) as B.
  cbn [round_mode] in B. fold (scaled (B2R (fst (x_p x))) (snd (x_p x))) in B.
  set (v := fst (x_p x)) in *. set (e := snd (x_p x)) in *.
  assert (GF : generic_format radix2 EfptProofs.fe (scaled (B2R v) e)).
  { unfold scaled. destruct V as [Z0|V]; [rewrite Z0, Rmult_0_l; apply generic_format_0|].
    apply (mult_bpow_exact_FLT radix2 (-1074) 53); [exact (generic_format_B2R 53 1024 v)|].
    assert (-1 < mag radix2 (B2R v))%Z; [|lia]. apply mag_gt_bpow. rewrite half_pow. assumption. }
  rewrite (round_generic radix2 _ ZnearestE _ GF), Rlt_bool_true in B.
  - destruct B as (B1 & B2 & _). rewrite B1, B2. split; [assumption|]. split; [assumption|]. split; assumption.
  - pose proof (x_value_bound N x X) as XB. unfold Wn in XB.
    assert (XR : Rabs (IZR (x_value x)) <= bpow radix2 992).
    { rewrite <- abs_IZR. apply Rle_trans with (IZR (W ^ Z.of_nat N)); [apply IZR_le; lia|].
      rewrite wn_pow. apply bpow_le. lia. }
    unfold close3 in A. assert (U : 3 * bpow radix2 (-53) < / 2).
    { assert (bpow radix2 (-53) < bpow radix2 (-3)) by (apply bpow_lt; lia).
      replace (bpow radix2 (-3)) with (/ 8) in * by (cbn; lra). lra. }
    assert (T : Rabs (scaled (B2R v) e) <= Rabs (scaled (B2R v) e - IZR (x_value x)) + Rabs (IZR (x_value x))).
    { replace (scaled (B2R v) e) with ((scaled (B2R v) e - IZR (x_value x)) + IZR (x_value x)) at 1 by ring. apply Rabs_triang. }
    pose proof (Rabs_pos (IZR (x_value x))) as P0.
    assert (3 * bpow radix2 (-53) * Rabs (IZR (x_value x)) <= / 2 * Rabs (IZR (x_value x))) by (apply Rmult_le_compat_r; lra).
    assert (bpow radix2 992 * 2 < bpow radix2 1024).
    { change 2 with (bpow radix2 1). rewrite <- bpow_plus. apply bpow_lt. lia. }
    lra.
Qed.
(* the integers of the Voronoi builder have 64 chunks: large ones have no double *)
Theorem C85_double_refuted : exists x, x_wf 64 x /\ x_canonical x /\ x_value x = (2 ^ 1024)%Z /\ is_finite (x_d x) = false.
Proof.
  exists (mk_x 33 (repeat 0%Z 32 ++ [1%Z])). split; [|split; [|split]].
  - split; [reflexivity|]. split; [vm_compute; lia|]. unfold digits. repeat (constructor; [split; [vm_compute; discriminate|reflexivity]|]). constructor.
  - right. vm_compute. discriminate.
  - vm_compute. reflexivity.
  - vm_compute. reflexivity.
Qed.
(* 2^128 - (2^128 - 5), the product of constants in 64 bits: the difference keeps leading chunks that
   are zero, and only the three leading chunks are converted, so 5 becomes 0 *)
Definition big : expr := Mul (Mul (Lit64 (2 ^ 62)) (Lit64 (2 ^ 62))) (Lit32 16).
Theorem C85_cancel_refuted : exists x, run 64 (Sub big (Sub big (Lit32 5))) = Ok x /\
  meaning (Sub big (Sub big (Lit32 5))) = 5%Z /\ x_value x = 5%Z /\
  (exists c, x_efpt x = Val c /\ EfptProofs.value c = 0) /\ is_finite (x_d x) = true /\ B2R (x_d x) = 0.
Proof.
  exists (mk_x 4 [5; 0; 0; 0]%Z). split; [vm_compute; reflexivity|]. split; [vm_compute; reflexivity|].
  split; [vm_compute; reflexivity|].
  assert (P : exists s, fst (x_p (mk_x 4 [5; 0; 0; 0]%Z)) = B754_zero s).
  { assert (Q : match fst (x_p (mk_x 4 [5; 0; 0; 0]%Z)) with B754_zero _ => true | _ => false end = true) by (vm_compute; reflexivity).
    destruct (fst (x_p (mk_x 4 [5; 0; 0; 0]%Z))); try discriminate Q. eexists; reflexivity. }
  destruct P as (s & P). unfold x_efpt, x_d. rewrite P.
  split; [|split; reflexivity].
  destruct (make_fact (B754_zero s) (snd (x_p (mk_x 4 [5; 0; 0; 0]%Z)))) as (c & M & V & W); [reflexivity|vm_compute; split; discriminate|].
  exists c. split; [assumption|]. rewrite W. cbn [B2R]. ring.
Qed.
(* the hypotheses are met by a number of five chunks, of either sign *)
Example C85_demo : let x := mk_x (-5) [7; 4294967295; 3; 123456789; 99]%Z in
  x_wf 64 x /\ x_wf 31 x /\ x_canonical x /\ snd (x_p x) = 64%Z /\ is_finite (x_d x) = true /\ Bltb (x_d x) f_zero = true /\
  close3 (B2R (x_d x)) (x_value x) /\ exists c, x_efpt x = Val c /\ e_exp c = 135%Z /\ e_is_neg c = true.
Proof.
  cbv zeta. set (x := mk_x (-5) [7; 4294967295; 3; 123456789; 99]%Z).
  assert (D : digits (x_chunks x)).
  { unfold digits, x. cbn [x_chunks]. repeat (constructor; [split; [vm_compute; discriminate|reflexivity]|]). constructor. }
  assert (X : forall n, (5 <= n)%nat -> x_wf n x) by (intros n L; split; [reflexivity|split; [exact L|exact D]]).
  assert (C : x_canonical x) by (right; vm_compute; discriminate).
  split; [apply X; lia|]. split; [apply X; lia|]. split; [exact C|]. split; [vm_compute; reflexivity|].
  split; [vm_compute; reflexivity|]. split; [vm_compute; reflexivity|].
  split; [apply (C85_double 31 x); [apply X; lia|exact C|lia]|].
  exists (got (x_efpt x)). split; [apply got_val; vm_compute; reflexivity|]. split; vm_compute; reflexivity.
Qed.

Print Assumptions C85_pair.
Print Assumptions C85_efpt.
Print Assumptions C85_double.
Print Assumptions C85_double_refuted.
Print Assumptions C85_cancel_refuted.
Print Assumptions C85_demo.
