(* Lemmas for C86. *)
From Coq Require Import Reals ZArith Bool List Lra Lia Psatz.
From Flocq Require Import Core BinarySingleNaN.
From Verif Require Import Base Set90Spec Set90Model RobustSpec RobustModel P_Robust XIntSpec XIntModel XIntProofs
  EfptSpec EfptModel EfptProofs EfptRound XConvSpec XConvModel XConvProofs P_Efpt P_XConv SqrtExprModel.
From Coq Require Import Lra.
Import ListNotations.
Local Open Scope R_scope.

Notation u3 := (3 * bpow radix2 (-53)).
Lemma u3_small : 0 <= u3 <= / 1000.
Proof.
  pose proof (bpow_gt_0 radix2 (-53)). assert (bpow radix2 (-53) < bpow radix2 (-12)) by (apply bpow_lt; lia).
  replace (bpow radix2 (-12)) with (/ 4096) in * by (cbn; lra). lra.
Qed.
Lemma nearest_rounds : rounds u3 nearest.
Proof.
  intros x. pose proof (nearest_near x) as N. unfold near in N. pose proof (bpow_gt_0 radix2 (-53)). pose proof (Rabs_pos x). nra.
Qed.
(* big integers with the same value are the same *)
Lemma canon_unique : forall N x y, x_wf N x -> x_wf N y -> x_canonical x -> x_canonical y -> x_value x = x_value y -> x = y.
Proof.
  intros N x y WX WY CX CY E. apply (proj2 (x_eqb_spec N x y WX WY CX CY)) in E. unfold x_eqb in E.
  destruct (Z.eqb_spec (x_count x) (x_count y)) as [Q|Q]; cbn [negb] in E; [|discriminate].
  apply chunks_eqb_eq in E. destruct x as [x1 x2], y as [y1 y2]. cbn [x_count x_chunks] in *. subst. reflexivity.
Qed.
(* the conversion of the integers of a list, as a function on Z *)
Definition conv_value (x : xint) : R := EfptProofs.value (got (x_efpt x)).
Definition cv_of (l : list xint) (z : Z) : R :=
  match find (fun x => Z.eqb (x_value x) z) l with Some x => conv_value x | None => IZR z end.
(* N chunks at most, of 32 bits, and the leading one is not zero *)
Definition good (N : nat) (x : xint) : Prop := x_wf N x /\ x_canonical x.

Section Conv.
Variable N : nat.
Hypothesis NL : (Z.of_nat N <= 1000000)%Z.
Lemma conv_fact : forall x, good N x -> exists c, x_efpt x = Val c /\ valid c /\ EfptProofs.value c = conv_value x /\
  close3 (conv_value x) (x_value x) /\ sign_as (conv_value x) (IZR (x_value x)) /\ (Z.abs (e_exp c) <= 33000000)%Z.
Proof.
  intros x (X & C). destruct (C85_efpt N x X C) as (c & E & V & A & S & _); [lia|]. exists c.
  unfold conv_value. rewrite E. cbn [got]. repeat split; try assumption; try apply V; try apply S.
  destruct (C85_pair N x X C) as (F & B & _). unfold x_efpt, make in E. rewrite F in E.
  destruct (frexp_fact _ F) as (m & k & Q & _ & _ & _ & K). rewrite Q in E. cbn [fst snd] in E.
  destruct (int_ok (k + snd (x_p x))); [|discriminate]. injection E as <-. cbn [e_exp]. lia.
Qed.
Lemma cv_converts : forall l, Forall (good N) l -> converts u3 (cv_of l).
Proof.
  intros l G z. unfold cv_of. destruct (find _ l) as [x|] eqn:E.
  - apply find_some in E as (I & E). apply Z.eqb_eq in E. subst z. rewrite Forall_forall in G.
    destruct (conv_fact x (G x I)) as (_ & _ & _ & _ & A & _). exact A.
  - rewrite Rminus_diag_eq, Rabs_R0 by reflexivity. apply Rmult_le_pos; [apply u3_small|apply Rabs_pos].
Qed.
Lemma cv_in : forall l x, Forall (good N) l -> In x l -> cv_of l (x_value x) = conv_value x.
Proof.
  intros l x G I. unfold cv_of. rewrite Forall_forall in G. destruct (find _ l) as [y|] eqn:E.
  - apply find_some in E as (J & E). apply Z.eqb_eq in E. destruct (G x I) as (WX & CX). destruct (G y J) as (WY & CY).
    rewrite (canon_unique N y x); auto.
  - apply (find_none _ _ E) in I. apply Z.eqb_neq in I. contradiction.
Qed.
End Conv.
(* the exponents of results *)
Lemma make_exp : forall v e c, make v e = Val c -> (Z.abs (e_exp c - e) <= 1100)%Z.
Proof.
  intros v e c M. unfold make in M. destruct (is_finite v) eqn:F; [|discriminate].
  destruct (frexp_fact _ F) as (m & k & Q & _ & _ & _ & K). rewrite Q in M. cbn [fst snd] in M.
  destruct (int_ok (k + e)); [|discriminate]. injection M as <-. cbn [e_exp]. lia.
Qed.
Lemma sqrt_exp : forall a c, e_sqrt a = Val c -> (Z.abs (e_exp c) <= Z.abs (e_exp a) + 1102)%Z.
Proof.
  intros a c E. unfold e_sqrt in E. rewrite 2!Z.shiftr_div_pow2 in E by lia. change (2 ^ 1)%Z with 2%Z in E.
  destruct (Z.odd (e_exp a)); apply make_exp in E; Z.div_mod_to_equations; lia.
Qed.
Lemma mult_exp : forall a b c, e_mult a b = Val c -> (Z.abs (e_exp c) <= Z.abs (e_exp a) + Z.abs (e_exp b) + 1100)%Z.
Proof. intros a b c E. unfold e_mult in E. destruct (int_ok _); [|discriminate]. apply make_exp in E. lia. Qed.
Lemma minus_exp : forall a b c, e_minus a b = Val c -> (Z.abs (e_exp c) <= Z.abs (e_exp a) + Z.abs (e_exp b) + 1100)%Z.
Proof.
  intros a b c E. unfold e_minus in E.
  repeat match type of E with context[if ?b then _ else _] => destruct b end; try discriminate;
    try (injection E as <-); try (apply make_exp in E); lia.
Qed.

(* eval1 on the types of the builder is eval1 of C39 with rounding to nearest *)
Lemma eval1_real : forall N, (Z.of_nat N <= 1000000)%Z -> forall cv m p A B,
  good N A -> good N B -> (0 <= x_value B)%Z ->
  cv (rdA m p 0) = conv_value A -> cv (rdB m p 0) = conv_value B ->
  exists c, s_eval1 A B = Val c /\ valid c /\ (Z.abs (e_exp c) <= 70000000)%Z /\ eval1 nearest cv m p = Some (EfptProofs.value c).
Proof.
  intros N NL cv m p A B GA GB PB EA EB.
  destruct (conv_fact N NL A GA) as (a & Ca & Va & Wa & _ & _ & Xa).
  destruct (conv_fact N NL B GB) as (b & Cb & Vb & Wb & _ & Sb & Xb).
  assert (B0 : 0 <= EfptProofs.value b).
  { rewrite Wb. apply IZR_le in PB. destruct Sb as (S1 & S2 & S3). destruct (Rle_or_lt 0 (conv_value B)) as [L|L]; [assumption|].
    apply S2 in L. lra. }
  destruct (C84_sqrt b Vb) as (s & Cs & Vs & Ws & _); [unfold small; lia|assumption|].
  pose proof (sqrt_exp _ _ Cs) as Xs.
  destruct (C84_mult a s Va Vs) as (c & Cc & Vc & Wc & _); [unfold small; lia|unfold small; lia|].
  pose proof (mult_exp _ _ _ Cc) as Xc.
  exists c. unfold s_eval1, bindo. rewrite Ca, Cb, Cs. split; [exact Cc|]. split; [assumption|]. split; [lia|].
  unfold eval1. rewrite EA, EB. unfold f_sqrt. rewrite <- Wb.
  replace (RobustModel.is_neg (EfptProofs.value b)) with false.
  - cbn [bind]. rewrite <- Ws, <- Wa, <- Wc. reflexivity.
  - unfold RobustModel.is_neg. destruct (Rlt_dec (EfptProofs.value b) 0); [lra|reflexivity].
Qed.
