(* C34, C35: extended_int. *)
From Verif Require Import Base Scan90Spec Set90Spec Set90Model IvlModel XIntSpec XIntModel XIntProofs.

(* ---------- C34: exact arithmetic ---------- *)
Theorem C34_from_int32 : forall N z, (0 < N)%nat -> is_int z -> z <> INT_MIN ->
  exists x, x_of_int32 z = Ok x /\ x_wf N x /\ x_canonical x /\ x_value x = z.
Proof. exact x_of_int32_ok. Qed.
Theorem C34_from_int64 : forall N z, (2 <= N)%nat -> is_int64 z -> z <> - 2 ^ 63 ->
  exists x, x_of_int64 N z = Ok x /\ x_wf N x /\ x_canonical x /\ x_value x = z.
Proof. exact x_of_int64_ok. Qed.
(* the most negative int or int64 is not handled: signed overflow *)
Theorem C34_from_int_min_refuted : x_of_int32 INT_MIN = Overflow /\ (forall N, (2 <= N)%nat -> x_of_int64 N (- 2 ^ 63) = Overflow).
Proof.
  split; [reflexivity|]. intros [|[|N]] L; [lia|lia|]. reflexivity.
Qed.
(* the constructor from a list of chunks, most significant first, keeps the low N chunks *)
Theorem C34_from_vector : forall N chunks plus, digits chunks ->
  let x := x_of_vector N chunks plus in x_wf N x /\ x_value x = (if plus then 1 else -1) * (value (rev chunks) mod W ^ Z.of_nat N).
Proof. exact x_of_vector_spec. Qed.
Theorem C34_negation : forall N x, x_wf N x ->
  x_wf N (x_neg x) /\ x_value (x_neg x) = - x_value x /\ (x_canonical x -> x_canonical (x_neg x)).
Proof. intros N x H. split; [apply x_neg_wf; exact H|]. split; [apply x_neg_value|intros C; exact C]. Qed.
(* one addition or subtraction of canonical values is exact; the result is
   canonical unless the two leading chunks cancel (not_tiny) *)
Theorem C34_addition_partial : forall N x y, x_wf N x -> x_wf N y -> x_canonical x -> x_canonical y ->
  Z.abs (x_value x + x_value y) < W ^ Z.of_nat N ->
  x_wf N (x_add N x y) /\ x_value (x_add N x y) = x_value x + x_value y /\
  (not_tiny x y (x_value x + x_value y) \/ 0 <= x_value x * x_value y -> x_canonical (x_add N x y)).
Proof. exact x_add_spec. Qed.
Theorem C34_subtraction_partial : forall N x y, x_wf N x -> x_wf N y -> x_canonical x -> x_canonical y ->
  Z.abs (x_value x - x_value y) < W ^ Z.of_nat N ->
  x_wf N (x_sub N x y) /\ x_value (x_sub N x y) = x_value x - x_value y /\
  (not_tiny x y (x_value x - x_value y) \/ x_value x * x_value y <= 0 -> x_canonical (x_sub N x y)).
Proof. exact x_sub_spec. Qed.
(* multiplication is exact for every well-formed operand, and stays canonical *)
Theorem C34_multiplication : forall N x y, x_wf N x -> x_wf N y -> Z.of_nat N < 2 ^ 31 - 1 ->
  Z.abs (x_value x * x_value y) < W ^ Z.of_nat N ->
  x_wf N (x_mul N x y) /\ x_value (x_mul N x y) = x_value x * x_value y /\ (x_canonical x -> x_canonical y -> x_canonical (x_mul N x y)).
Proof. exact x_mul_spec. Qed.
(* whole expressions: exact if every intermediate value fits and no sum cancels
   more than 32 leading bits *)
Theorem C34_expression_partial : forall N e, (2 <= N)%nat -> Z.of_nat N < 2 ^ 31 - 1 -> fits N e ->
  exists x, run N e = Ok x /\ x_wf N x /\ x_canonical x /\ x_value x = meaning e.
Proof. exact run_spec. Qed.
(* without that condition arithmetic is wrong although every value fits:
   2^64 - (2^64 - 1) - 5 *)
Definition two64 : expr := Mul (Lit64 (2 ^ 32)) (Lit64 (2 ^ 32)).
Definition one_the_hard_way : expr := Sub two64 (Sub two64 (Lit32 1)).
Theorem C34_arithmetic_refuted : exists e x, run 4 e = Ok x /\ meaning e = -4 /\ x_value x = 2 ^ 64 - 4.
Proof. exists (Sub one_the_hard_way (Lit32 5)). eexists. split; [vm_compute; reflexivity|]. split; vm_compute; reflexivity. Qed.

(* ---------- C35: comparisons ---------- *)
Theorem C35_order_partial : forall N x y, x_wf N x -> x_wf N y -> x_canonical x -> x_canonical y ->
  (x_ltb x y = true <-> x_value x < x_value y).
Proof. exact x_ltb_spec. Qed.
Theorem C35_equality_partial : forall N x y, x_wf N x -> x_wf N y -> x_canonical x -> x_canonical y ->
  (x_eqb x y = true <-> x_value x = x_value y).
Proof. exact x_eqb_spec. Qed.
Theorem C35_sign_partial : forall N x, x_wf N x -> x_canonical x ->
  (x_is_pos x = true <-> 0 < x_value x) /\ (x_is_neg x = true <-> x_value x < 0) /\ (x_is_zero x = true <-> x_value x = 0).
Proof. exact x_sign_spec. Qed.
Theorem C35_expression_partial : forall N e f, (2 <= N)%nat -> Z.of_nat N < 2 ^ 31 - 1 -> fits N e -> fits N f ->
  exists x y, run N e = Ok x /\ run N f = Ok y /\
    (x_ltb x y = true <-> meaning e < meaning f) /\ (x_eqb x y = true <-> meaning e = meaning f) /\ (x_is_zero x = true <-> meaning e = 0) /\
    (x_is_pos x = true <-> 0 < meaning e) /\ (x_is_neg x = true <-> meaning e < 0).
Proof.
  intros N e f L1 L2 F1 F2. destruct (run_spec N e L1 L2 F1) as [x [E1 [A1 [B1 C1]]]]. destruct (run_spec N f L1 L2 F2) as [y [E2 [A2 [B2 C2]]]].
  exists x, y. split; [exact E1|]. split; [exact E2|]. rewrite <- C1, <- C2. destruct (x_sign_spec N x A1 B1) as [S1 [S2 S3]].
  split; [exact (x_ltb_spec N x y A1 A2 B1 B2)|]. split; [exact (x_eqb_spec N x y A1 A2 B1 B2)|]. split; [exact S3|]. split; [exact S1|exact S2].
Qed.
(* reachable values that compare wrongly: 2^64 - (2^64 - 1) is not equal to 1 and
   is not less than 5; subtracting 1 from it gives a zero that is positive *)
Theorem C35_comparison_refuted : exists e x y z, run 4 e = Ok x /\ meaning e = 1 /\ run 4 (Lit32 1) = Ok y /\ x_eqb x y = false /\
  run 4 (Lit32 5) = Ok z /\ x_ltb x z = false.
Proof. exists one_the_hard_way. do 3 eexists. split; [vm_compute; reflexivity|]. split; [vm_compute; reflexivity|]. split; [vm_compute; reflexivity|]. split; [vm_compute; reflexivity|]. split; vm_compute; reflexivity. Qed.
Theorem C35_sign_refuted : exists e x, run 4 e = Ok x /\ meaning e = 0 /\ x_is_zero x = false /\ x_is_pos x = true.
Proof. exists (Sub one_the_hard_way (Lit32 1)). eexists. split; [vm_compute; reflexivity|]. repeat split; vm_compute; reflexivity. Qed.

(* a borrow and a carry across chunks, with all hypotheses met *)
Definition sample : expr := Sub (Mul (Mul (Lit64 (2 ^ 62)) (Lit64 (-3))) (Lit32 1000000007)) (Neg (Add two64 (Lit64 (2 ^ 63 - 1)))).
Example C34_hypotheses : fits 4 sample /\ fits 4 two64 /\ exists x, run 4 sample = Ok x /\ x_value x = - 3 * 2 ^ 62 * 1000000007 + 2 ^ 64 + 2 ^ 63 - 1 /\ length (x_chunks x) = 3%nat.
Proof.
  split; [|split].
  - cbn [fits sample two64 meaning]. unfold is_int, is_int64, no_loss, INT_MIN, INT_MAX.
    repeat split; try (vm_compute; discriminate); try (vm_compute; reflexivity).
    + right. left. vm_compute. discriminate.
    + right. right. right. vm_compute. discriminate.
  - cbn [fits two64 meaning]. repeat split; try (vm_compute; discriminate); vm_compute; reflexivity.
  - eexists. split; [vm_compute; reflexivity|]. split; vm_compute; reflexivity.
Qed.

Print Assumptions C34_from_int32.
Print Assumptions C34_from_int64.
Print Assumptions C34_from_int_min_refuted.
Print Assumptions C34_from_vector.
Print Assumptions C34_negation.
Print Assumptions C34_addition_partial.
Print Assumptions C34_subtraction_partial.
Print Assumptions C34_multiplication.
Print Assumptions C34_expression_partial.
Print Assumptions C34_arithmetic_refuted.
Print Assumptions C35_order_partial.
Print Assumptions C35_equality_partial.
Print Assumptions C35_sign_partial.
Print Assumptions C35_expression_partial.
Print Assumptions C35_comparison_refuted.
Print Assumptions C35_sign_refuted.
