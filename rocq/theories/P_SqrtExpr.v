(* C86: sums of square roots in the types of the Voronoi builder. *)
From Coq Require Import Reals ZArith Bool List Lra Lia Psatz.
From Flocq Require Import Core BinarySingleNaN.
From Verif Require Import Base Set90Spec Set90Model RobustSpec RobustModel P_Robust XIntSpec XIntModel XIntProofs
  EfptSpec EfptModel EfptProofs EfptRound XConvSpec XConvModel XConvProofs P_Efpt P_XConv SqrtExprModel SqrtExprProofs.
From Coq Require Import Lra.
Import ListNotations.
Local Open Scope R_scope.

(* the term of one root: error at most 12 * 2^-53 *)
Theorem C86_eval1 : forall N A B, (Z.of_nat N <= 1000000)%Z -> good N A -> good N B -> (0 <= x_value B)%Z ->
  exists c, s_eval1 A B = Val c /\ valid c /\
    within_eps 4 u3 (EfptProofs.value c) (IZR (x_value A) * sqrt (IZR (x_value B))) /\
    same_sign (EfptProofs.value c) (IZR (x_value A) * sqrt (IZR (x_value B))).
Proof.
  intros N A B NL GA GB PB.
  assert (G : Forall (good N) [A; B]) by (apply Forall_cons; [assumption|]; apply Forall_cons; [assumption|apply Forall_nil]).
  destruct (C39_eval1 u3 nearest (cv_of [A; B]) (fun _ => x_value A) (fun _ => x_value B) (fun _ => 0%Z) (fun _ => 0%Z))
    as (v & E & W & S); [apply u3_small|apply nearest_rounds|apply (cv_converts N NL); assumption|intros; assumption|].
  destruct (eval1_real N NL (cv_of [A; B]) (mk_mem (fun _ => x_value A) (fun _ => x_value B) (fun _ => 0%Z) (fun _ => 0%Z)) (mk_ptr false 0) A B)
    as (c & C & V & _ & R); try assumption.
  - apply (cv_in N); [assumption|left; reflexivity].
  - apply (cv_in N); [assumption|right; left; reflexivity].
  - rewrite E in R. injection R as ->. exists c. split; [assumption|]. split; [assumption|].
    cbn [sum_sqrt] in W, S. rewrite Rplus_0_l in W, S. split; assumption.
Qed.
(* two roots: error at most 21 * 2^-53, if the second term is not zero unless the first is and, for terms of
   opposite signs, the difference of the squares keeps its leading digits *)
Theorem C86_eval2 : forall N A0 B0 A1 B1, (Z.of_nat N <= 1000000)%Z -> good N A0 -> good N B0 -> good N A1 -> good N B1 ->
  (0 <= x_value B0)%Z -> (0 <= x_value B1)%Z ->
  (x_value A1 * x_value B1 <> 0 \/ x_value A0 * x_value B0 = 0)%Z ->
  (x_value A0 * x_value A1 < 0 ->
   let p := x_value A0 * x_value A0 * x_value B0 in let q := x_value A1 * x_value A1 * x_value B1 in
   Z.abs p < W ^ Z.of_nat N /\ Z.abs q < W ^ Z.of_nat N /\
   Z.abs (x_value A0 * x_value A0) < W ^ Z.of_nat N /\ Z.abs (x_value A1 * x_value A1) < W ^ Z.of_nat N /\
   no_loss p (- q) (p - q))%Z ->
  exists c, s_eval2 N A0 B0 A1 B1 = Val c /\ valid c /\
    within_eps 7 u3 (EfptProofs.value c) (IZR (x_value A0) * sqrt (IZR (x_value B0)) + IZR (x_value A1) * sqrt (IZR (x_value B1))) /\
    same_sign (EfptProofs.value c) (IZR (x_value A0) * sqrt (IZR (x_value B0)) + IZR (x_value A1) * sqrt (IZR (x_value B1))).
Proof.
  intros N A0 B0 A1 B1 NL GA0 GB0 GA1 GB1 PB0 PB1 NA1 FIT.
  set (P := x_mul N (x_mul N A0 A0) B0). set (Q := x_mul N (x_mul N A1 A1) B1). set (M := x_sub N P Q).
  assert (L31 : (Z.of_nat N < 2 ^ 31 - 1)%Z) by (change (2 ^ 31)%Z with 2147483648%Z; lia).
  assert (HM : (x_value A0 * x_value A1 < 0)%Z -> good N M /\ x_value M = (x_value A0 * x_value A0 * x_value B0 - x_value A1 * x_value A1 * x_value B1)%Z).
  { intros OPP. destruct (FIT OPP) as (LP & LQ & LA & LB & NO). clear FIT.
  assert (MUL : forall A B, good N A -> good N B -> (Z.abs (x_value A * x_value A) < W ^ Z.of_nat N)%Z ->
    (Z.abs (x_value A * x_value A * x_value B) < W ^ Z.of_nat N)%Z ->
    good N (x_mul N (x_mul N A A) B) /\ x_value (x_mul N (x_mul N A A) B) = (x_value A * x_value A * x_value B)%Z).
  { intros A B (WA & CA) (WB & CB) H1 H2. destruct (x_mul_spec N A A WA WA L31 H1) as (W1 & V1 & C1).
    destruct (x_mul_spec N (x_mul N A A) B W1 WB L31) as (W2 & V2 & C2); [rewrite V1; assumption|].
    split; [split; [assumption|apply C2; [apply C1; assumption|assumption]]|]. rewrite V2, V1. reflexivity. }
  destruct (MUL A0 B0 GA0 GB0 LA LP) as (GP & VP). destruct (MUL A1 B1 GA1 GB1 LB LQ) as (GQ & VQ). fold P in GP, VP. fold Q in GQ, VQ.
  assert (PP : (0 <= x_value P)%Z) by (rewrite VP; nia). assert (QQ : (0 <= x_value Q)%Z) by (rewrite VQ; nia).
  assert (GM : good N M /\ x_value M = (x_value P - x_value Q)%Z).
  { destruct GP as (WP & CP). destruct GQ as (WQ & CQ).
    destruct (x_sub_spec N P Q WP WQ CP CQ) as (W1 & V1 & C1); [rewrite <- VP in LP; rewrite <- VQ in LQ; lia|].
    split; [split; [assumption|]|assumption].
    unfold M. rewrite x_sub_add. destruct (x_add_spec N P (x_neg Q) WP (x_neg_wf _ _ WQ) CP CQ) as (_ & _ & C2).
    { rewrite x_neg_value. rewrite <- VP in LP. rewrite <- VQ in LQ. lia. }
    apply C2. apply (no_loss_not_tiny P (x_neg Q) N); try assumption; [apply x_neg_wf; assumption|].
    rewrite x_neg_value, VP, VQ. exact NO. }
  destruct GM as (GM & VM). rewrite VP, VQ in VM. split; assumption. }
  assert (HL : exists l, Forall (good N) l /\ In A0 l /\ In B0 l /\ In A1 l /\ In B1 l /\ ((x_value A0 * x_value A1 < 0)%Z -> In M l)).
  { destruct (Z_lt_le_dec (x_value A0 * x_value A1) 0) as [OPP|OPP].
    - destruct (HM OPP) as (GM & _). exists [A0; B0; A1; B1; M]. split; [|intuition auto with datatypes].
      apply Forall_cons; [assumption|]. apply Forall_cons; [assumption|]. apply Forall_cons; [assumption|].
      apply Forall_cons; [assumption|]. apply Forall_cons; [assumption|]. apply Forall_nil.
    - exists [A0; B0; A1; B1]. split; [|intuition (auto with datatypes || lia)].
      apply Forall_cons; [assumption|]. apply Forall_cons; [assumption|]. apply Forall_cons; [assumption|].
      apply Forall_cons; [assumption|]. apply Forall_nil. }
  destruct HL as (l & G & IA0 & IB0 & IA1 & IB1 & IM).
  set (fA := fun i : nat => match i with O => x_value A0 | _ => x_value A1 end).
  set (fB := fun i : nat => match i with O => x_value B0 | _ => x_value B1 end).
  set (z := fun _ : nat => 0%Z). set (m := mk_mem fA fB z z).
  destruct (C39_eval2 u3 nearest (cv_of l) fA fB z z) as (v & E & WI & S);
    [apply u3_small|apply nearest_rounds|apply (cv_converts N NL); assumption|intros [|i] _; cbn [fB]; lia|].
  destruct (eval1_real N NL (cv_of l) m (mk_ptr false 0) A0 B0) as (a & Ca & Va & Xa & Ra); try assumption;
    [apply (cv_in N); assumption..|].
  destruct (eval1_real N NL (cv_of l) m (shift (mk_ptr false 0) 1) A1 B1) as (b & Cb & Vb & Xb & Rb); try assumption; [| |].
  { apply (cv_in N); assumption. }
  { apply (cv_in N); assumption. }
  fold m in E. unfold eval2 in E. rewrite Ra, Rb in E. cbn [bind] in E.
  destruct (C86_eval1 N A1 B1 NL GA1 GB1) as (b' & Cb' & _ & _ & (S1 & S2)); [lia|].
  rewrite Cb in Cb'. injection Cb' as <-.
  destruct (C86_eval1 N A0 B0 NL GA0 GB0) as (a' & Ca' & _ & _ & (R1 & R2)); [lia|].
  rewrite Ca in Ca'. injection Ca' as <-.
  assert (ZB : P_Efpt.zero_below a b).
  { destruct NA1 as [NZ|Z0].
    - right. left. assert (P1 : (0 < x_value B1)%Z) by (destruct (Z.eq_dec (x_value B1) 0) as [K|K]; [rewrite K in NZ|]; lia).
      assert (RP : 0 < sqrt (IZR (x_value B1))) by (apply sqrt_lt_R0; apply (IZR_lt 0); assumption).
      intros Z0. rewrite Z0 in S1, S2. destruct (Z_lt_le_dec (x_value A1) 0) as [H|H].
      + apply IZR_lt in H. assert (0 < 0); [apply S2; nra|lra].
      + assert (H' : (0 < x_value A1)%Z) by (destruct (Z.eq_dec (x_value A1) 0) as [K|K]; [rewrite K in NZ|]; lia). apply IZR_lt in H'. assert (0 < 0); [apply S1; nra|lra].
    - left. assert (Z1 : IZR (x_value A0) * sqrt (IZR (x_value B0)) = 0).
      { apply Z.mul_eq_0 in Z0 as [Z0|Z0]; rewrite Z0; [|rewrite sqrt_0]; ring. }
      rewrite Z1 in R1, R2. destruct (Rtotal_order (EfptProofs.value a) 0) as [L|[L|L]]; [apply R2 in L; lra|assumption|apply R1 in L; lra]. }
  destruct (C84_sign a Va) as (SA1 & SA2 & _). destruct (C84_sign b Vb) as (SB1 & SB2 & _).
  assert (POS : forall x, valid x -> RobustModel.is_pos (EfptProofs.value x) = e_is_pos x).
  { intros x V. destruct (C84_sign x V) as (H & _). unfold RobustModel.is_pos. destruct (Rlt_dec 0 (EfptProofs.value x)) as [L|L].
    - symmetry. apply H. assumption.
    - destruct (e_is_pos x); [exfalso; apply L, H; reflexivity|reflexivity]. }
  assert (NEG : forall x, valid x -> RobustModel.is_neg (EfptProofs.value x) = e_is_neg x).
  { intros x V. destruct (C84_sign x V) as (_ & H & _). unfold RobustModel.is_neg. destruct (Rlt_dec (EfptProofs.value x) 0) as [L|L].
    - symmetry. apply H. assumption.
    - destruct (e_is_neg x); [exfalso; apply L, H; reflexivity|reflexivity]. }
  assert (GOAL : exists c, s_eval2 N A0 B0 A1 B1 = Val c /\ valid c /\ EfptProofs.value c = v).
  { unfold s_eval2. rewrite Ca, Cb. cbn [bindo]. unfold same_side in E. rewrite 2!POS, 2!NEG in E by assumption.
    destruct ((negb (e_is_neg a) && negb (e_is_neg b)) || (negb (e_is_pos a) && negb (e_is_pos b))) eqn:SS.
    - injection E as <-. destruct (C84_plus a b Va Vb) as (c & Cc & Vc & Wc & _); [unfold small; lia|unfold small; lia|assumption|].
      exists c. split; [assumption|]. split; assumption.
    - fold P Q. fold M.
      assert (OPP : (x_value A0 * x_value A1 < 0)%Z).
      { destruct (e_is_neg a) eqn:A1', (e_is_pos a) eqn:A2', (e_is_neg b) eqn:B1', (e_is_pos b) eqn:B2'; cbn in SS; try discriminate SS;
        repeat match goal with H : ?x = true <-> _, K : ?x = true |- _ => apply H in K end; try lra;
        repeat match goal with H : _ <-> _, K : _ |- _ => apply H in K; clear H end;
        pose proof (sqrt_pos (IZR (x_value B0))); pose proof (sqrt_pos (IZR (x_value B1)));
        [assert (x_value A0 < 0)%Z by (apply lt_IZR; nra); assert (0 < x_value A1)%Z by (apply lt_IZR; nra); nia
        |assert (0 < x_value A0)%Z by (apply lt_IZR; nra); assert (x_value A1 < 0)%Z by (apply lt_IZR; nra); nia]. }
      destruct (HM OPP) as (GM & VM).
      destruct (conv_fact N NL M GM) as (n & Cn & Vn & Wn' & _ & _ & Xn). rewrite Cn. cbn [bindo].
      destruct (C84_minus a b Va Vb) as (d & Cd & Vd & Wd & _ & SGd); [unfold small; lia|unfold small; lia|assumption|].
      pose proof (minus_exp _ _ _ Cd) as Xd. rewrite Cd. cbn [bindo].
      assert (D0 : EfptProofs.value d <> 0).
      { destruct SGd as (_ & _ & H). intros Z0. apply H in Z0.
        destruct (e_is_neg a) eqn:A1', (e_is_pos a) eqn:A2', (e_is_neg b) eqn:B1', (e_is_pos b) eqn:B2'; cbn in SS; try discriminate SS;
        repeat match goal with H : ?x = true <-> _, K : ?x = true |- _ => apply H in K end; try lra. }
      destruct (C84_div n d Vn Vd) as (c & Cc & Vc & Wc & _); [unfold small; lia|unfold small; lia|assumption|].
      exists c. split; [assumption|]. split; [assumption|]. rewrite Wc, Wd, Wn'.
      unfold f_div in E. rewrite <- Wd in E. destruct (Req_EM_T (EfptProofs.value d) 0) as [Z0|_]; [contradiction|].
      injection E as <-. rewrite Wd. do 2 f_equal. rewrite <- (cv_in N l M G) by exact (IM OPP). f_equal. rewrite VM. reflexivity. }
  destruct GOAL as (c & C & V & R). subst v. exists c. split; [assumption|]. split; [assumption|].
  cbn [sum_sqrt] in WI, S. rewrite Rplus_0_l in WI, S. split; assumption.
Qed.

(* witnesses *)
Definition is_nil (c : efpt) : bool := match e_val c with B754_zero _ => true | _ => false end.
Lemma is_nil_value : forall c, is_nil c = true -> EfptProofs.value c = 0.
Proof. intros c H. unfold is_nil in H. unfold EfptProofs.value. destruct (e_val c); try discriminate H. cbn [B2R]. apply Rmult_0_l. Qed.
Ltac is_good := split; [split; [reflexivity|split; [cbn; lia|
  unfold digits; cbn [x_chunks]; repeat (constructor; [split; [vm_compute; discriminate|reflexivity]|]); constructor]]|
  first [left; reflexivity | right; vm_compute; discriminate]].

(* 1 * sqrt 1 + 0 * sqrt (2^200) is 0: the second term must not be zero *)
Theorem C86_zero_term_refuted : exists A0 B0 A1 B1 c, good 64 A0 /\ good 64 B0 /\ good 64 A1 /\ good 64 B1 /\
  x_value A0 = 1%Z /\ x_value B0 = 1%Z /\ x_value A1 = 0%Z /\ x_value B1 = (2 ^ 200)%Z /\
  s_eval2 64 A0 B0 A1 B1 = Val c /\ EfptProofs.value c = 0 /\
  IZR (x_value A0) * sqrt (IZR (x_value B0)) + IZR (x_value A1) * sqrt (IZR (x_value B1)) = 1.
Proof.
  set (o := mk_x 1 [1]%Z). set (z := mk_x 0 []). set (b := mk_x 7 [0; 0; 0; 0; 0; 0; 256]%Z).
  exists o, o, z, b, (got (s_eval2 64 o o z b)).
  split; [is_good|]. split; [is_good|]. split; [is_good|]. split; [is_good|].
  split; [vm_compute; reflexivity|]. split; [vm_compute; reflexivity|]. split; [vm_compute; reflexivity|]. split; [vm_compute; reflexivity|].
  split; [apply got_val; vm_compute; reflexivity|]. split; [apply is_nil_value; vm_compute; reflexivity|].
  replace (x_value o) with 1%Z by (vm_compute; reflexivity). replace (x_value z) with 0%Z by (vm_compute; reflexivity).
  rewrite sqrt_1. ring.
Qed.
(* sqrt (2^128) - sqrt (2^128 - 5) is 0: the difference of the squares must keep its leading digits *)
Theorem C86_cancel_refuted : exists A0 B0 A1 B1 c, good 64 A0 /\ good 64 B0 /\ good 64 A1 /\ good 64 B1 /\
  x_value A0 = 1%Z /\ x_value B0 = (2 ^ 128)%Z /\ x_value A1 = (-1)%Z /\ x_value B1 = (2 ^ 128 - 5)%Z /\
  s_eval2 64 A0 B0 A1 B1 = Val c /\ EfptProofs.value c = 0 /\
  0 < IZR (x_value A0) * sqrt (IZR (x_value B0)) + IZR (x_value A1) * sqrt (IZR (x_value B1)).
Proof.
  set (o := mk_x 1 [1]%Z). set (n := mk_x (-1) [1]%Z). set (b := mk_x 5 [0; 0; 0; 0; 1]%Z).
  set (d := mk_x 4 [4294967291; 4294967295; 4294967295; 4294967295]%Z).
  exists o, b, n, d, (got (s_eval2 64 o b n d)).
  split; [is_good|]. split; [is_good|]. split; [is_good|]. split; [is_good|].
  split; [vm_compute; reflexivity|]. split; [vm_compute; reflexivity|]. split; [vm_compute; reflexivity|]. split; [vm_compute; reflexivity|].
  split; [apply got_val; vm_compute; reflexivity|]. split; [apply is_nil_value; vm_compute; reflexivity|].
  replace (x_value o) with 1%Z by (vm_compute; reflexivity). replace (x_value n) with (-1)%Z by (vm_compute; reflexivity).
  assert (sqrt (IZR (x_value d)) < sqrt (IZR (x_value b))); [|lra].
  apply sqrt_lt_1; [apply (IZR_le 0)|apply (IZR_le 0)|apply IZR_lt]; vm_compute; (reflexivity || discriminate).
Qed.
(* the hypotheses are met by two terms of opposite signs *)
Example C86_demo : let A0 := mk_x 2 [7; 3]%Z in let B0 := mk_x 1 [12345]%Z in let A1 := mk_x (-2) [9; 2]%Z in let B1 := mk_x 1 [99999]%Z in
  good 64 A0 /\ good 64 B0 /\ good 64 A1 /\ good 64 B1 /\ (0 <= x_value B0)%Z /\ (0 <= x_value B1)%Z /\ (x_value A1 * x_value B1 <> 0)%Z /\ (x_value A0 * x_value A1 < 0)%Z /\
  (let p := x_value A0 * x_value A0 * x_value B0 in let q := x_value A1 * x_value A1 * x_value B1 in
   Z.abs p < W ^ Z.of_nat 64 /\ Z.abs q < W ^ Z.of_nat 64 /\
   Z.abs (x_value A0 * x_value A0) < W ^ Z.of_nat 64 /\ Z.abs (x_value A1 * x_value A1) < W ^ Z.of_nat 64 /\
   no_loss p (- q) (p - q))%Z /\
  is_val (s_eval2 64 A0 B0 A1 B1) = true /\ e_is_neg (got (s_eval2 64 A0 B0 A1 B1)) = true.
Proof.
  cbv zeta. split; [is_good|]. split; [is_good|]. split; [is_good|]. split; [is_good|].
  split; [vm_compute; discriminate|]. split; [vm_compute; discriminate|]. split; [vm_compute; discriminate|]. split; [vm_compute; reflexivity|].
  split; [|split; vm_compute; reflexivity].
  split; [vm_compute; reflexivity|]. split; [vm_compute; reflexivity|]. split; [vm_compute; reflexivity|]. split; [vm_compute; reflexivity|].
  right. right. right. vm_compute. discriminate.
Qed.

Print Assumptions C86_eval1.
Print Assumptions C86_eval2.
Print Assumptions C86_zero_term_refuted.
Print Assumptions C86_cancel_refuted.
Print Assumptions C86_demo.
