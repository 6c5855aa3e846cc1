(* Facts about the conversion of big integers to floating point numbers. *)
From Coq Require Import Reals ZArith Bool List Lra Lia Psatz.
From Flocq Require Import Core BinarySingleNaN Plus_error Relative Mult_error.
From Verif Require Import XIntSpec XIntProofs EfptSpec EfptModel EfptProofs XConvModel.
From Coq Require Import Lra.
Import ListNotations.
Local Open Scope R_scope.

Lemma cast_fact : forall z, (0 <= z <= 2 ^ 53)%Z -> is_finite (cast z) = true /\ B2R (cast z) = IZR z.
Proof.
  intros z Z0. pose proof (binary_normalize_correct 53 1024 prec53 emax1024 mode_NE z 0 false) as C. cbv zeta in C.
  assert (E : F2R ({| Fnum := z; Fexp := 0 |} : float radix2) = IZR z) by (unfold F2R; cbn [Fnum Fexp bpow]; lra).
  rewrite E in C. assert (B : Rabs (IZR z) <= bpow radix2 53).
  { rewrite Rabs_right by (apply Rle_ge, IZR_le; lia). change (bpow radix2 53) with (IZR (2 ^ 53)). apply IZR_le; lia. }
  assert (G : generic_format radix2 fe (IZR z)).
  { destruct (Req_dec (Rabs (IZR z)) (bpow radix2 53)) as [Q|Q].
    - rewrite Rabs_right in Q by (apply Rle_ge, IZR_le; lia). rewrite Q. apply generic_format_bpow. vm_compute. discriminate.
    - apply (generic_format_FLT radix2 (-1074) 53). apply (FLT_spec _ _ _ _ (Float radix2 z 0)).
      + symmetry. assumption.
      + cbn [Fnum]. change (radix2 ^ 53)%Z with (2 ^ 53)%Z. rewrite Z.abs_eq by lia.
        assert (IZR z < bpow radix2 53).
        { rewrite Rabs_right in * by (apply Rle_ge, IZR_le; lia). lra. }
        apply lt_IZR. assumption.
      + cbn [Fexp]. lia. }
  rewrite (round_generic radix2 fe _ _ G), Rlt_bool_true in C.
  - destruct C as (C1 & C2 & _). split; assumption.
  - eapply Rle_lt_trans; [exact B|]. apply bpow_lt. lia.
Qed.
Lemma word_fact : is_finite f_word = true /\ B2R f_word = bpow radix2 32.
Proof. destruct (cast_fact 4294967296) as (F & V); [lia|]. split; [exact F|]. exact V. Qed.

(* one step of Horner's scheme: only the addition rounds *)
Lemma horner_fact : forall v c, is_finite v = true -> B2R v = 0 \/ / 2 <= B2R v -> B2R v <= bpow radix2 66 ->
  (0 <= c < 2 ^ 32)%Z ->
  is_finite (horner v c) = true /\ near (B2R (horner v c)) (B2R v * bpow radix2 32 + IZR c)
  /\ B2R (horner v c) = rnd (B2R v * bpow radix2 32 + IZR c).
Proof.
  intros v c F V0 VB C. destruct word_fact as (FW & VW). destruct (cast_fact c) as (FC & VC); [lia|].
  assert (VP : 0 <= B2R v) by lra.
  pose proof (Bmult_correct 53 1024 _ _ mode_NE v f_word) as M. rewrite VW in M. cbn [round_mode] in M.
  assert (G : generic_format radix2 fe (B2R v * bpow radix2 32)).
  { destruct V0 as [E|E]; [rewrite E, Rmult_0_l; apply generic_format_0|].
    apply (mult_bpow_exact_FLT radix2 (-1074) 53); [exact (generic_format_B2R 53 1024 v)|].
    assert (-1 < mag radix2 (B2R v))%Z; [|lia]. apply mag_gt_bpow. rewrite half_pow, Rabs_right; lra. }
  assert (B98 : B2R v * bpow radix2 32 <= bpow radix2 98).
  { change 98%Z with (66 + 32)%Z. rewrite bpow_plus. apply Rmult_le_compat_r; [apply bpow_ge_0|assumption]. }
  assert (P98 : 0 <= B2R v * bpow radix2 32) by (apply Rmult_le_pos; [assumption|apply bpow_ge_0]).
  rewrite (round_generic radix2 fe ZnearestE _ G), Rlt_bool_true in M.
  2:{ rewrite Rabs_right by lra. eapply Rle_lt_trans; [exact B98|]. apply bpow_lt. lia. }
  destruct M as (M1 & M2 & _). rewrite F, FW in M2. cbn [andb] in M2.
  unfold horner. pose proof (Bplus_correct 53 1024 _ _ mode_NE (Bmult mode_NE v f_word) (cast c) M2 FC) as P.
  pose proof (sum_near _ _ (generic_format_B2R _ _ (Bmult mode_NE v f_word)) (generic_format_B2R _ _ (cast c))) as N.
  cbn [round_mode] in P. rewrite M1, VC in P, N. rewrite (near_bound _ _ N) in P.
  - destruct P as (P1 & P2 & _). rewrite P1. split; [assumption|]. split; [assumption|reflexivity].
  - assert (C0 : 0 <= IZR c) by (apply IZR_le; lia).
    assert (C1 : IZR c <= bpow radix2 98).
    { apply Rle_trans with (bpow radix2 32); [apply (IZR_le c (2 ^ 32)); lia|apply bpow_le; lia]. }
    rewrite Rabs_right by lra.
    assert (bpow radix2 98 * 2 <= bpow radix2 100).
    { change 2 with (bpow radix2 1). rewrite <- bpow_plus. apply bpow_le; lia. } lra.
Qed.
Lemma near_le : forall v x, near v x -> 0 <= x -> / 2 * x <= v <= 2 * x /\ Rabs (v - x) <= bpow radix2 (-53) * x.
Proof.
  intros v x N X. unfold near in N. rewrite (Rabs_right x) in N by lra. pose proof u_small as U.
  assert (bpow radix2 (-53) * x <= / 4 * x) by (apply Rmult_le_compat_r; lra).
  pose proof (Rabs_le_inv _ _ N). split; [lra|assumption].
Qed.
(* two and three digits *)
Lemma two_digits : forall b a, (0 < b < 2 ^ 32)%Z -> (0 <= a < 2 ^ 32)%Z ->
  is_finite (horner (cast b) a) = true /\ near (B2R (horner (cast b) a)) (IZR (a + 2 ^ 32 * b))
  /\ B2R (horner (cast b) a) = rnd (IZR (a + 2 ^ 32 * b)).
Proof.
  intros b a B A. destruct (cast_fact b) as (F & V); [lia|].
  assert (1 <= IZR b) by (apply IZR_le; lia).
  assert (IZR b <= bpow radix2 66).
  { apply Rle_trans with (bpow radix2 32); [apply (IZR_le b (2 ^ 32)); lia|apply bpow_le; lia]. }
  destruct (horner_fact (cast b) a F) as (F1 & N1 & R1); [rewrite V; right; lra|rewrite V; assumption|assumption|].
  split; [assumption|]. rewrite V in N1, R1.
  replace (IZR (a + 2 ^ 32 * b)) with (IZR b * bpow radix2 32 + IZR a); [split; assumption|].
  rewrite plus_IZR, mult_IZR. change (bpow radix2 32) with (IZR (2 ^ 32)). ring.
Qed.
Lemma three_digits : forall c d e, (0 < c < 2 ^ 32)%Z -> (0 <= d < 2 ^ 32)%Z -> (0 <= e < 2 ^ 32)%Z ->
  let v := horner (horner (horner f_zero c) d) e in let t := IZR (e + 2 ^ 32 * (d + 2 ^ 32 * c)) in
  is_finite v = true /\ Rabs (B2R v - t) <= (2 * bpow radix2 (-53) + bpow radix2 (-53) * bpow radix2 (-53)) * t.
Proof.
  intros c d e C D E. cbv zeta.
  assert (Z1 : is_finite (horner f_zero c) = true /\ B2R (horner f_zero c) = IZR c).
  { destruct (cast_fact c) as (F & V); [lia|]. destruct word_fact as (FW & VW).
    unfold horner. pose proof (Bmult_correct 53 1024 _ _ mode_NE f_zero f_word) as M. cbn [B2R f_zero] in M.
    rewrite Rmult_0_l, round_0, Rabs_R0, Rlt_bool_true in M by (typeclasses eauto || apply bpow_gt_0).
    destruct M as (M1 & M2 & _). rewrite FW in M2. cbn [is_finite f_zero andb] in M2.
    pose proof (Bplus_correct 53 1024 _ _ mode_NE _ (cast c) M2 F) as P. rewrite M1, Rplus_0_l in P.
    pose proof (generic_format_B2R _ _ (cast c)) as G.
    rewrite (round_generic radix2 fe _ _ G), Rlt_bool_true in P by apply abs_B2R_lt_emax.
    destruct P as (P1 & P2 & _). rewrite P1, V. split; [assumption|reflexivity]. }
  destruct Z1 as (F1 & V1). set (w := bpow radix2 32) in *. set (u := bpow radix2 (-53)) in *.
  assert (C1 : 1 <= IZR c) by (apply IZR_le; lia).
  assert (D1 : 0 <= IZR d) by (apply IZR_le; lia). assert (E1 : 0 <= IZR e) by (apply IZR_le; lia).
  assert (WW : w = IZR (2 ^ 32)) by reflexivity.
  assert (CW : IZR c <= w) by (rewrite WW; apply IZR_le; lia). assert (DW : IZR d <= w) by (rewrite WW; apply IZR_le; lia).
  assert (W66 : w * w * 4 <= bpow radix2 66).
  { replace 4 with (bpow radix2 2) by (cbn; lra). unfold w. rewrite <- 2!bpow_plus. apply bpow_le; lia. }
  assert (W1 : 1 <= w) by (rewrite WW; apply IZR_le; lia).
  assert (W6 : w <= bpow radix2 66) by (apply bpow_le; lia).
  destruct (horner_fact (horner f_zero c) d F1) as (F2 & N2 & _); [rewrite V1; right; lra|rewrite V1; lra|lia|].
  rewrite V1 in N2. fold w in N2. set (v1 := B2R (horner (horner f_zero c) d)) in *.
  assert (S1 : 1 <= IZR c * w + IZR d) by nra.
  destruct (near_le _ _ N2) as (L1 & N2'); [lra|]. fold u in N2'.
  assert (S2 : IZR c * w + IZR d <= 2 * (w * w)) by nra.
  destruct (horner_fact (horner (horner f_zero c) d) e F2) as (F3 & N3 & _); [fold v1; right; lra|fold v1; lra|lia|].
  fold v1 w in N3. set (v2 := B2R (horner (horner (horner f_zero c) d) e)) in *. split; [assumption|].
  assert (V1P : 0 <= v1) by lra.
  destruct (near_le _ _ N3) as (_ & N3'); [nra|]. fold u in N3'.
  assert (T : IZR (e + 2 ^ 32 * (d + 2 ^ 32 * c)) = (IZR c * w + IZR d) * w + IZR e).
  { rewrite plus_IZR, mult_IZR, plus_IZR, mult_IZR, WW. ring. }
  rewrite T. set (s := IZR c * w + IZR d) in *. set (t := s * w + IZR e).
  pose proof u_small as U. fold u in U.
  assert (K : Rabs (v1 * w + IZR e - t) <= u * t).
  { unfold t. replace (v1 * w + IZR e - (s * w + IZR e)) with ((v1 - s) * w) by ring.
    rewrite Rabs_mult, (Rabs_right w) by lra.
    assert (Rabs (v1 - s) * w <= u * s * w) by (apply Rmult_le_compat_r; lra). nra. }
  assert (Q : v1 * w + IZR e <= (1 + u) * t) by (pose proof (Rabs_le_inv _ _ K); lra).
  assert (R1 : Rabs (v2 - t) <= Rabs (v2 - (v1 * w + IZR e)) + Rabs (v1 * w + IZR e - t)).
  { replace (v2 - t) with ((v2 - (v1 * w + IZR e)) + (v1 * w + IZR e - t)) by ring. apply Rabs_triang. }
  assert (u * (v1 * w + IZR e) <= u * ((1 + u) * t)) by (apply Rmult_le_compat_l; lra). lra.
Qed.
Lemma wn_pow : forall n, IZR (W ^ Z.of_nat n) = bpow radix2 (32 * Z.of_nat n).
Proof.
  intros n. unfold W. rewrite <- Z.pow_mul_r by lia. rewrite <- IZR_Zpower by lia. reflexivity.
Qed.

(* the digits without the sign *)
Definition digits_p (l : list Z) : fpt * Z :=
  match rev l with
  | [] => (f_zero, 0%Z)
  | [a] => (cast a, 0%Z)
  | [b; a] => (Bplus mode_NE (Bmult mode_NE (cast b) f_word) (cast a), 0%Z)
  | c :: d :: e :: l => (horner (horner (horner f_zero c) d) e, Z.shiftl (Z.of_nat (length l)) 5)
  end.
Lemma last_rev : forall (l : list Z) a m, rev l = a :: m -> l = rev m ++ [a].
Proof. intros l a m E. rewrite <- (rev_involutive l), E. reflexivity. Qed.
Lemma canonical_top : forall l a, digits (l ++ [a]) -> canonical (l ++ [a]) -> (0 < a < 2 ^ 32)%Z.
Proof.
  intros l a D C. apply Forall_app in D as (_ & D). inversion D as [|? ? A _]; subst.
  destruct C as [C|C]; [destruct l; discriminate C|]. rewrite last_last in C. change W with (2 ^ 32)%Z in A. lia.
Qed.
Lemma digits_fact : forall l, digits l -> canonical l ->
  is_finite (fst (digits_p l)) = true /\ (B2R (fst (digits_p l)) = 0 \/ / 2 <= B2R (fst (digits_p l)))
  /\ (0 <= snd (digits_p l) <= 32 * Z.of_nat (length l))%Z
  /\ Rabs (scaled (B2R (fst (digits_p l))) (snd (digits_p l)) - IZR (XIntSpec.value l))
     <= 3 * bpow radix2 (-53) * IZR (XIntSpec.value l)
  /\ ((XIntSpec.value l <= 2 ^ 53)%Z -> snd (digits_p l) = 0%Z /\ B2R (fst (digits_p l)) = IZR (XIntSpec.value l)).
Proof.
  intros l D C. pose proof (value_range l D) as VR. pose proof u_small as U.
  assert (V0 : 0 <= IZR (XIntSpec.value l)) by (apply IZR_le; lia).
  unfold digits_p. destruct (rev l) as [|c [|d [|e m]]] eqn:E; cbn [fst snd].
  - rewrite <- (rev_involutive l), E. cbn [rev XIntSpec.value length f_zero B2R is_finite].
    unfold scaled. rewrite Rmult_0_l, Rminus_0_r, Rabs_R0. repeat split; try lia; [left; reflexivity|lra].
  - apply last_rev in E. cbn [rev app] in E. subst l. pose proof (canonical_top [] c D C) as C1.
    destruct (cast_fact c) as (F & V); [lia|].
    assert (VC : XIntSpec.value [c] = c) by (cbn [XIntSpec.value]; lia). rewrite VC in *. rewrite V.
    assert (1 <= IZR c) by (apply IZR_le; lia).
    split; [assumption|]. split; [right; lra|]. split; [cbn [length]; lia|]. unfold scaled. change (bpow radix2 0) with 1.
    replace (IZR c * 1 - IZR c) with 0 by ring. rewrite Rabs_R0. split; [nra|]. intros _. split; reflexivity.
  - apply last_rev in E. cbn [rev app] in E. subst l. pose proof (canonical_top [d] c D C) as C1.
    inversion D as [|? ? D1 _]; subst. change W with (2 ^ 32)%Z in D1.
    assert (VC : XIntSpec.value [d; c] = (d + 2 ^ 32 * c)%Z) by (cbn [XIntSpec.value]; change W with (2 ^ 32)%Z; lia).
    rewrite VC in *. destruct (two_digits c d C1 D1) as (F & N & R).
    fold (horner (cast c) d). set (v := horner (cast c) d) in *. set (t := IZR (d + 2 ^ 32 * c)) in *.
    destruct (near_le _ _ N V0) as (L & N'). assert (1 <= t) by (apply IZR_le; lia).
    split; [assumption|]. split; [right; lra|]. split; [cbn [length]; lia|]. unfold scaled. change (bpow radix2 0) with 1.
    rewrite Rmult_1_r. split; [nra|]. intros B. split; [reflexivity|]. rewrite R. unfold t.
    destruct (cast_fact (d + 2 ^ 32 * c)) as (_ & V); [lia|]. rewrite <- V.
    apply round_generic; [typeclasses eauto|]. apply generic_format_B2R.
  - apply last_rev in E. cbn [rev] in E. rewrite <- 2!app_assoc in E. cbn [app] in E.
    assert (L : l = (rev m ++ [e; d]) ++ [c]) by (rewrite E, <- app_assoc; reflexivity).
    pose proof D as D'. rewrite L in D, C. pose proof (canonical_top _ c D C) as C1. clear D. rewrite E in D'.
    apply Forall_app in D' as (DM & DT). inversion DT as [|? ? E1 DT']; subst. inversion DT' as [|? ? D1 _]; subst.
    change W with (2 ^ 32)%Z in E1, D1.
    pose proof (three_digits c d e C1 D1 E1) as (F & N). pose proof (value_range _ DM) as RM.
    assert (EV : XIntSpec.value (rev m ++ [e; d; c])
      = (XIntSpec.value (rev m) + Wn (length (rev m)) * (e + 2 ^ 32 * (d + 2 ^ 32 * c)))%Z).
    { rewrite value_app. cbn [XIntSpec.value]. change W with (2 ^ 32)%Z. lia. }
    set (v := horner (horner (horner f_zero c) d) e) in *. set (t := (e + 2 ^ 32 * (d + 2 ^ 32 * c))%Z) in *.
    assert (T : (2 ^ 64 <= t)%Z) by (unfold t; nia).
    assert (TR : bpow radix2 64 <= IZR t) by (apply (IZR_le (2 ^ 64) t); assumption).
    set (u := bpow radix2 (-53)) in *. set (P := bpow radix2 (32 * Z.of_nat (length m))) in *.
    assert (WP : IZR (Wn (length (rev m))) = P) by (unfold Wn; rewrite wn_pow, rev_length; reflexivity).
    assert (PP : 0 < P) by apply bpow_gt_0.
    assert (VX : IZR (XIntSpec.value (rev m ++ [e; d; c])) = IZR (XIntSpec.value (rev m)) + P * IZR t).
    { rewrite EV, plus_IZR, mult_IZR, WP. reflexivity. }
    assert (M0 : 0 <= IZR (XIntSpec.value (rev m))) by (apply IZR_le; lia).
    assert (M1 : IZR (XIntSpec.value (rev m)) <= P) by (rewrite <- WP; apply IZR_le; lia).
    assert (B64 : 1 <= bpow radix2 64) by (change 1 with (bpow radix2 0); apply bpow_le; lia).
    assert (SH : Z.shiftl (Z.of_nat (length m)) 5 = (32 * Z.of_nat (length m))%Z) by (rewrite Z.shiftl_mul_pow2 by lia; lia).
    assert (UU : u * u <= / 4 * u) by (apply Rmult_le_compat_r; lra).
    assert (S64 : bpow radix2 (-64) * 4 <= u).
    { replace 4 with (bpow radix2 2) by (cbn; lra). rewrite <- bpow_plus. apply bpow_le. lia. }
    assert (S65 : bpow radix2 (-64) * bpow radix2 64 = 1) by (rewrite <- bpow_plus; reflexivity).
    assert (L2 : (2 * u + u * u) * IZR t <= / 2 * IZR t).
    { apply Rmult_le_compat_r; [lra|]. assert (u < / 100); [|nra].
      apply Rlt_trans with (bpow radix2 (-7)); [apply bpow_lt; lia|]. cbn. lra. }
    pose proof (Rabs_le_inv _ _ N) as NI.
    split; [assumption|]. split; [right; lra|]. rewrite SH.
    split; [rewrite app_length, rev_length; cbn [length]; lia|]. split.
    + rewrite VX. unfold scaled. fold P.
      replace (B2R v * P - (IZR (XIntSpec.value (rev m)) + P * IZR t))
        with ((B2R v - IZR t) * P + - IZR (XIntSpec.value (rev m))) by ring.
      eapply Rle_trans; [apply Rabs_triang|]. rewrite Rabs_Ropp, Rabs_mult, (Rabs_right P), (Rabs_right (IZR _)) by lra.
      assert (A1 : Rabs (B2R v - IZR t) * P <= (2 * u + u * u) * IZR t * P) by (apply Rmult_le_compat_r; lra).
      assert (A2 : P <= u * / 4 * (P * IZR t)).
      { assert (1 <= u * / 4 * IZR t).
        { apply Rle_trans with (bpow radix2 (-64) * bpow radix2 64); [lra|]. apply Rmult_le_compat; try lra. apply bpow_ge_0. }
        replace (u * / 4 * (P * IZR t)) with ((u * / 4 * IZR t) * P) by ring. nra. }
      assert (PT : 0 <= P * IZR t) by (apply Rmult_le_pos; lra).
      assert (A3 : u * u * (P * IZR t) <= / 4 * u * (P * IZR t)) by (apply Rmult_le_compat_r; lra).
      assert (A4 : 0 <= u * IZR (XIntSpec.value (rev m))) by (apply Rmult_le_pos; lra).
      assert (A5 : 0 <= u * (P * IZR t)) by (apply Rmult_le_pos; lra). lra.
    + intros B. exfalso. rewrite EV in B. pose proof (Wn_pos (length (rev m))). change (2 ^ 53)%Z with 9007199254740992%Z in B.
      change (2 ^ 64)%Z with 18446744073709551616%Z in T. nia.
Qed.
