(* C39: the robust arithmetic of the Voronoi predicates computes the expressions
   it names, with the documented error bounds. *)
From Coq Require Import Reals ZArith Lra Lia List.
From Verif Require Import Base RobustSpec RobustModel RobustProofs.
Open Scope R_scope.

(* ---------- robust_sqrt_expr ---------- *)
(* For every rounding of the operations and of the conversions with relative
   error at most eps, eval1 .. eval4 never take the root of a negative number
   and never divide by zero, their relative error is at most 4, 7, 16 and 25
   eps, and the sign of the result is the sign of the expression. *)
Theorem C39_eval1 : forall eps rnd cv A B tA tB, 0 <= eps <= / 1000 -> rounds eps rnd -> converts eps cv ->
  (forall i, (i < 1)%nat -> (0 <= B i)%Z) ->
  exists v, eval1 rnd cv (mk_mem A B tA tB) (mk_ptr false 0) = Some v /\
    within_eps 4 eps v (sum_sqrt 1 A B) /\ same_sign v (sum_sqrt 1 A B).
Proof.
  intros eps rnd cv A B tA tB E HR HC HB. destruct (eval1_ok eps E rnd HR cv HC (mk_mem A B tA tB) (mk_ptr false 0)) as [v [Ev Hv]].
  { apply (HB 0%nat). lia. }
  exists v. split; [exact Ev|]. cbn [sum_sqrt]. rewrite Rplus_0_l. split.
  - apply (approx_within eps), (approx_weaken eps E (351 / 100)); [lra|exact Hv].
  - apply (approx_sign eps E (351 / 100)); [lra|exact Hv].
Qed.
Theorem C39_eval2 : forall eps rnd cv A B tA tB, 0 <= eps <= / 1000 -> rounds eps rnd -> converts eps cv ->
  (forall i, (i < 2)%nat -> (0 <= B i)%Z) ->
  exists v, eval2 rnd cv (mk_mem A B tA tB) (mk_ptr false 0) = Some v /\
    within_eps 7 eps v (sum_sqrt 2 A B) /\ same_sign v (sum_sqrt 2 A B).
Proof.
  intros eps rnd cv A B tA tB E HR HC HB. destruct (eval2_ok eps E rnd HR cv HC (mk_mem A B tA tB) (mk_ptr false 0)) as [v [Ev Hv]].
  { apply (HB 0%nat). lia. } { apply (HB 1%nat). lia. }
  exists v. split; [exact Ev|]. cbn [sum_sqrt]. rewrite Rplus_0_l. split.
  - apply (approx_within eps), (approx_weaken eps E (66 / 10)); [lra|exact Hv].
  - apply (approx_sign eps E (66 / 10)); [lra|exact Hv].
Qed.
Lemma keeps_A rnd cv m p v m' : eval3 rnd cv m p = Some (v, m') -> m_A m' = m_A m /\ m_B m' = m_B m.
Proof.
  unfold eval3. destruct (eval2 rnd cv m p) as [a|]; cbn [bind]; [|discriminate].
  destruct (eval1 rnd cv m (shift p 2)) as [b|]; cbn [bind]; [|discriminate].
  destruct (same_side a b); [intros H; assert (m' = m) by congruence; subst; split; reflexivity|].
  destruct (eval2 rnd cv _ (mk_ptr true 3)) as [n|]; cbn [bind]; [|discriminate].
  destruct (f_div rnd n _) as [q|]; cbn [bind]; [|discriminate].
  intros H. injection H as _ <-. split; reflexivity.
Qed.
Theorem C39_eval3 : forall eps rnd cv A B tA tB, 0 <= eps <= / 1000 -> rounds eps rnd -> converts eps cv ->
  (forall i, (i < 3)%nat -> (0 <= B i)%Z) ->
  exists v m', eval3 rnd cv (mk_mem A B tA tB) (mk_ptr false 0) = Some (v, m') /\ m_A m' = A /\ m_B m' = B /\
    within_eps 16 eps v (sum_sqrt 3 A B) /\ same_sign v (sum_sqrt 3 A B).
Proof.
  intros eps rnd cv A B tA tB E HR HC HB. destruct (eval3_ok eps E rnd HR cv HC (mk_mem A B tA tB) (mk_ptr false 0)) as [v [m' [Ev Hv]]].
  { discriminate. } { apply (HB 0%nat). lia. } { apply (HB 1%nat). lia. } { apply (HB 2%nat). lia. }
  exists v, m'. split; [exact Ev|]. apply keeps_A in Ev. destruct Ev as [EA EB]. split; [exact EA|]. split; [exact EB|].
  cbn [sum_sqrt]. rewrite Rplus_0_l. split.
  - apply (approx_within eps), (approx_weaken eps E (155 / 10)); [lra|exact Hv].
  - apply (approx_sign eps E (155 / 10)); [lra|exact Hv].
Qed.
Theorem C39_eval4 : forall eps rnd cv A B tA tB, 0 <= eps <= / 1000 -> rounds eps rnd -> converts eps cv ->
  (forall i, (i < 4)%nat -> (0 <= B i)%Z) ->
  exists v m', eval4 rnd cv (mk_mem A B tA tB) (mk_ptr false 0) = Some (v, m') /\ m_A m' = A /\ m_B m' = B /\
    within_eps 25 eps v (sum_sqrt 4 A B) /\ same_sign v (sum_sqrt 4 A B).
Proof.
  intros eps rnd cv A B tA tB E HR HC HB. destruct (eval4_ok eps E rnd HR cv HC (mk_mem A B tA tB) (mk_ptr false 0)) as [v [m' [Ev Hv]]].
  { reflexivity. } { apply (HB 0%nat). lia. } { apply (HB 1%nat). lia. } { apply (HB 2%nat). lia. } { apply (HB 3%nat). lia. }
  exists v, m'. split; [exact Ev|].
  assert (K : m_A m' = A /\ m_B m' = B).
  { clear -Ev. unfold eval4 in Ev. destruct (eval2 rnd cv _ (mk_ptr false 0)) as [a|]; cbn [bind] in Ev; [|discriminate].
    destruct (eval2 rnd cv _ (shift _ 2)) as [b|]; cbn [bind] in Ev; [|discriminate].
    destruct (same_side a b); [assert (X : m' = mk_mem A B tA tB) by congruence; subst; split; reflexivity|].
    match type of Ev with bind (eval3 rnd cv ?m ?p) _ = _ => destruct (eval3 rnd cv m p) as [[n m4]|] eqn:E3 end; cbn [bind] in Ev; [|discriminate].
    apply keeps_A in E3. destruct (f_div rnd n _) as [q|]; cbn [bind] in Ev; [|discriminate]. injection Ev as _ <-. exact E3. }
  destruct K as [EA EB]. split; [exact EA|]. split; [exact EB|].
  cbn [sum_sqrt]. rewrite Rplus_0_l. rewrite <- Rplus_assoc in Hv. split.
  - apply (approx_within eps). exact Hv.
  - apply (approx_sign eps E 25); [lra|exact Hv].
Qed.
(* In exact arithmetic the value is the expression itself. *)
Theorem C39_eval4_exact : forall A B tA tB, (forall i, (i < 4)%nat -> (0 <= B i)%Z) ->
  exists m', eval4 (fun x => x) IZR (mk_mem A B tA tB) (mk_ptr false 0) = Some (sum_sqrt 4 A B, m').
Proof.
  intros A B tA tB HB.
  destruct (C39_eval4 0 (fun x => x) IZR A B tA tB) as [v [m' [Ev [_ [_ [W _]]]]]]; [lra| | |exact HB|].
  - intros x. rewrite Rminus_diag_eq by reflexivity. rewrite Rabs_R0. lra.
  - intros z. rewrite Rminus_diag_eq by reflexivity. rewrite Rabs_R0. lra.
  - exists m'. rewrite Ev. unfold within_eps in W. rewrite Rmult_0_r, Rmult_0_l in W. pose proof (Rabs_pos (v - sum_sqrt 4 A B)).
    assert (Q : Rabs (v - sum_sqrt 4 A B) = 0) by lra.
    destruct (Req_dec (v - sum_sqrt 4 A B) 0) as [Q0|Q0]; [|apply Rabs_no_R0 in Q0; contradiction].
    replace v with (sum_sqrt 4 A B) by lra. reflexivity.
Qed.
(* a rounding that always errs, and an expression with cancellation: sqrt 2 + sqrt 3 - sqrt 5 - sqrt 1 *)
Definition demo_A (i : nat) : Z := nth i (1 :: 1 :: -1 :: -1 :: nil)%Z 0%Z.
Definition demo_B (i : nat) : Z := nth i (2 :: 3 :: 5 :: 1 :: nil)%Z 0%Z.
Example C39_eval_demo : rounds (/ 1000) (fun x => x * (1 + / 2000)) /\ converts (/ 1000) (fun z => IZR z * (1 - / 3000)) /\
  (forall i, (i < 4)%nat -> (0 <= demo_B i)%Z) /\
  exists v m', eval4 (fun x => x * (1 + / 2000)) (fun z => IZR z * (1 - / 3000)) (mk_mem demo_A demo_B (fun _ => 0%Z) (fun _ => 0%Z)) (mk_ptr false 0) = Some (v, m') /\ v < 0.
Proof.
  assert (H1 : rounds (/ 1000) (fun x => x * (1 + / 2000))).
  { intros x. replace (x * (1 + / 2000) - x) with (/ 2000 * x) by field. rewrite Rabs_mult, (Rabs_pos_eq (/ 2000)) by lra. pose proof (Rabs_pos x). lra. }
  assert (H2 : converts (/ 1000) (fun z => IZR z * (1 - / 3000))).
  { intros z. replace (IZR z * (1 - / 3000) - IZR z) with (- / 3000 * IZR z) by field. rewrite Rabs_mult, Rabs_Ropp, (Rabs_pos_eq (/ 3000)) by lra. pose proof (Rabs_pos (IZR z)). lra. }
  assert (H3 : forall i, (i < 4)%nat -> (0 <= demo_B i)%Z).
  { intros i L. unfold demo_B. destruct i as [|[|[|[|i]]]]; cbn [nth]; lia. }
  split; [exact H1|]. split; [exact H2|]. split; [exact H3|].
  destruct (C39_eval4 (/ 1000) _ _ demo_A demo_B (fun _ => 0%Z) (fun _ => 0%Z) ltac:(lra) H1 H2 H3) as [v [m' [Ev [_ [_ [_ [_ N]]]]]]].
  exists v, m'. split; [exact Ev|]. apply N. unfold sum_sqrt, demo_A, demo_B. cbn [nth]. rewrite sqrt_1.
  assert (L2 : sqrt 2 <= 1415 / 1000) by (apply Rsqr_incr_0_var; [rewrite Rsqr_sqrt by lra; unfold Rsqr; lra|lra]).
  assert (L3 : sqrt 3 <= 1733 / 1000) by (apply Rsqr_incr_0_var; [rewrite Rsqr_sqrt by lra; unfold Rsqr; lra|lra]).
  assert (L5 : 2236 / 1000 <= sqrt 5) by (apply Rsqr_incr_0_var; [rewrite Rsqr_sqrt by lra; unfold Rsqr; lra|apply sqrt_pos]).
  lra.
Qed.

(* ---------- robust_dif ---------- *)
(* Every program of robust_dif operators, with the assigning or the binary
   forms, keeps both sums non-negative, and its difference is the value of the
   expression; the only failure is a division by zero of the expression. *)
Theorem C39_robust_dif : forall inplace e, match value e with
  | None => run inplace e = None
  | Some v => exists d, run inplace e = Some d /\ 0 <= positive_sum d /\ 0 <= negative_sum d /\ positive_sum d - negative_sum d = v
  end.
Proof.
  intros ip e. pose proof (run_ok ip e) as H. destruct (value e) as [v|]; [|exact H].
  destruct H as [d [E [[P N] D]]]. exists d. repeat split; assumption.
Qed.
Example C39_robust_dif_demo : value (e_div_v (e_sub (e_v_mul (-2) (e_val 3)) (e_mul_v (e_val 5) (-7))) (-29)) = Some (-1).
Proof. cbn [value opt2]. destruct (Req_EM_T (-29) 0) as [E|E]; [lra|]. f_equal. field. Qed.

(* ---------- robust_fpt ---------- *)
(* The error carried by robust_fpt bounds the number of factors 1 + eps between
   the computed and the exact value, through *, /, square root, and additions
   and subtractions without cancellation. *)
Theorem C39_robust_fpt : forall eps rnd x y X Y, 0 < eps -> rounds (eps / (1 + eps)) rnd ->
  tracks eps (re x) (fpv x) X -> tracks eps (re y) (fpv y) Y ->
  tracks eps (re (rf_neg x)) (fpv (rf_neg x)) (- X) /\
  tracks eps (re (rf_mul rnd x y)) (fpv (rf_mul rnd x y)) (X * Y) /\
  (Y <> 0 -> exists q, rf_div rnd x y = Some q /\ tracks eps (re q) (fpv q) (X / Y)) /\
  (0 <= X -> exists q, rf_sqrt rnd x = Some q /\ tracks eps (re q) (fpv q) (sqrt X)) /\
  ((0 <= X /\ 0 <= Y) \/ (X <= 0 /\ Y <= 0) -> exists q, rf_add rnd x y = Some q /\ tracks eps (re q) (fpv q) (X + Y)) /\
  ((0 <= X /\ Y <= 0) \/ (X <= 0 /\ 0 <= Y) -> exists q, rf_sub rnd x y = Some q /\ tracks eps (re q) (fpv q) (X - Y)).
Proof.
  intros eps rnd [x rx] [y ry] X Y E HR HX HY. cbn [fpv re] in *.
  destruct (tracks_same_sign _ _ _ _ HX) as [SX1 SX2]. destruct (tracks_same_sign _ _ _ _ HY) as [SY1 SY2].
  assert (K : 0 <= Rmax rx ry) by (eapply Rle_trans; [apply (tracks_k_nonneg _ _ _ _ HX)|apply Rmax_l]).
  split; [apply tracks_neg; assumption|]. split; [|split; [|split; [|split]]].
  - unfold rf_mul. cbn [fpv re]. apply tracks_rnd; [assumption|assumption|]. apply tracks_mul; assumption.
  - intros N. destruct (tracks_div eps rx ry x X y Y N HX HY) as [T N']. unfold rf_div, f_div. cbn [fpv re].
    destruct (Req_EM_T y 0) as [Q|_]; [contradiction|]. cbn [bind]. eexists. split; [reflexivity|]. cbn [fpv re]. apply tracks_rnd; assumption.
  - intros N. destruct (tracks_sqrt eps rx x X N HX) as [P T]. unfold rf_sqrt, f_sqrt. cbn [fpv re].
    rewrite (proj2 (is_neg_false x) P). cbn [bind]. eexists. split; [reflexivity|]. cbn [fpv re]. apply tracks_rnd; assumption.
  - intros C. unfold rf_add. cbn [fpv re].
    assert (Sd : same_side x y = true).
    { apply same_side_spec. destruct C as [[A B]|[A B]]; [left|right]; split; apply Rnot_lt_le; intros Q; [apply SX2 in Q|apply SY2 in Q|apply SX1 in Q|apply SY1 in Q]; lra. }
    rewrite Sd. eexists. split; [reflexivity|]. cbn [fpv re]. apply tracks_rnd; [assumption|assumption|].
    apply tracks_add; [assumption|exact K|exact C|apply (tracks_weaken eps rx); [apply Rmax_l|exact HX]|apply (tracks_weaken eps ry); [apply Rmax_r|exact HY]].
  - intros C. unfold rf_sub. cbn [fpv re].
    assert (Sd : (negb (is_neg x) && negb (is_pos y)) || (negb (is_pos x) && negb (is_neg y)) = true).
    { unfold is_neg, is_pos. destruct (Rlt_dec x 0) as [A1|A1], (Rlt_dec 0 y) as [A2|A2], (Rlt_dec 0 x) as [A3|A3], (Rlt_dec y 0) as [A4|A4]; cbn [negb andb orb]; try reflexivity; exfalso;
        try apply SX2 in A1; try apply SX1 in A3; try apply SY1 in A2; try apply SY2 in A4; lra. }
    rewrite Sd. eexists. split; [reflexivity|]. cbn [fpv re]. apply tracks_rnd; [assumption|assumption|].
    apply (tracks_add eps E (Rmax rx ry) x X (- y) (- Y) K); [lra|apply (tracks_weaken eps rx); [apply Rmax_l|exact HX]|apply tracks_neg, (tracks_weaken eps ry); [apply Rmax_r|exact HY]].
Qed.
(* With cancellation the bound holds relative to the computed value, up to the
   factor 1 / (1 - r eps), r being the larger error of the operands. *)
Theorem C39_robust_fpt_cancel : forall eps rnd r x y q X Y, 0 < eps -> rounds (eps / (1 + eps)) rnd ->
  tracks eps (re x) (fpv x) X -> tracks eps (re y) (fpv y) Y -> re x <= r -> re y <= r -> r * eps < 1 ->
  ((0 < X /\ Y < 0) \/ (X < 0 /\ 0 < Y) -> rf_add rnd x y = Some q ->
     Rabs (fpv q - (X + Y)) <= re q * eps / (1 - r * eps) * Rabs (fpv q)) /\
  ((0 < X /\ 0 < Y) \/ (X < 0 /\ Y < 0) -> rf_sub rnd x y = Some q ->
     Rabs (fpv q - (X - Y)) <= re q * eps / (1 - r * eps) * Rabs (fpv q)).
Proof.
  intros eps rnd r [x rx] [y ry] q X Y E HR HX HY Lx Ly Lr. cbn [fpv re] in *.
  destruct (tracks_same_sign _ _ _ _ HX) as [SX1 SX2]. destruct (tracks_same_sign _ _ _ _ HY) as [SY1 SY2]. split.
  - intros C. unfold rf_add. cbn [fpv re].
    destruct (same_side x y) eqn:Sd.
    { apply same_side_spec in Sd. exfalso. destruct C as [[A B]|[A B]].
      - apply SX1 in A. apply SY2 in B. lra.
      - apply SX2 in A. apply SY1 in B. lra. }
    destruct (Req_EM_T (rnd (x + y)) 0) as [Z|Z]; [discriminate|]. intros Q. injection Q as <-. cbn [fpv re].
    apply (cancel_bound eps E rnd HR r rx ry x X y Y Lx Ly Lr HX HY); [|exact Z].
    destruct C as [[A B]|[A B]]; [left|right].
    + apply SX1 in A. apply SY2 in B. lra.
    + apply SX2 in A. apply SY1 in B. lra.
  - intros C. unfold rf_sub. cbn [fpv re].
    assert (Sd : (negb (is_neg x) && negb (is_pos y)) || (negb (is_pos x) && negb (is_neg y)) = false).
    { unfold is_neg, is_pos. assert (D : (0 < x /\ 0 < y) \/ (x < 0 /\ y < 0)).
      { destruct C as [[A B]|[A B]]; [left; apply SX1 in A; apply SY1 in B|right; apply SX2 in A; apply SY2 in B]; lra. }
      destruct (Rlt_dec x 0) as [A1|A1], (Rlt_dec 0 y) as [A2|A2], (Rlt_dec 0 x) as [A3|A3], (Rlt_dec y 0) as [A4|A4]; cbn [negb andb orb]; try reflexivity; exfalso; lra. }
    rewrite Sd. destruct (Req_EM_T (rnd (x - y)) 0) as [Z|Z]; [discriminate|]. intros Q. injection Q as <-. cbn [fpv re].
    pose proof (cancel_bound eps E rnd HR r rx ry x X (- y) (- Y) Lx Ly Lr HX (tracks_neg eps ry y Y HY)) as CB.
    replace (x * rx + y * ry) with (x * rx - - y * ry) by ring. apply CB; [|exact Z].
    destruct C as [[A B]|[A B]]; [left|right].
    + apply SX1 in A. apply SY1 in B. lra.
    + apply SX2 in A. apply SY2 in B. lra.
Qed.
(* Hence a reported error below (1 - r eps) / eps settles the sign. *)
Theorem C39_robust_fpt_sign : forall eps rnd r x y q X Y, 0 < eps -> rounds (eps / (1 + eps)) rnd ->
  tracks eps (re x) (fpv x) X -> tracks eps (re y) (fpv y) Y -> re x <= r -> re y <= r -> r * eps < 1 ->
  (0 < X /\ 0 < Y) \/ (X < 0 /\ Y < 0) -> rf_sub rnd x y = Some q -> re q * eps < 1 - r * eps -> same_sign (fpv q) (X - Y).
Proof.
  intros eps rnd r x y q X Y E HR HX HY Lx Ly Lr C Q L.
  pose proof (proj2 (C39_robust_fpt_cancel eps rnd r x y q X Y E HR HX HY Lx Ly Lr) C Q) as B.
  assert (N : fpv q <> 0).
  { unfold rf_sub in Q. revert Q. match goal with |- context [if ?c then _ else _] => destruct c eqn:Cc end.
    - exfalso. destruct (tracks_same_sign _ _ _ _ HX) as [SX1 SX2]. destruct (tracks_same_sign _ _ _ _ HY) as [SY1 SY2].
      assert (D : (0 < fpv x /\ 0 < fpv y) \/ (fpv x < 0 /\ fpv y < 0)).
      { destruct C as [[A B']|[A B']]; [left; apply SX1 in A; apply SY1 in B'|right; apply SX2 in A; apply SY2 in B']; lra. }
      unfold is_neg, is_pos in Cc. revert Cc.
      destruct (Rlt_dec (fpv x) 0) as [A1|A1], (Rlt_dec 0 (fpv y)) as [A2|A2], (Rlt_dec 0 (fpv x)) as [A3|A3], (Rlt_dec (fpv y) 0) as [A4|A4]; cbn [negb andb orb]; try discriminate; intros _; lra.
    - destruct (Req_EM_T (rnd (fpv x - fpv y)) 0) as [Z|Z]; [discriminate|]. intros Q. injection Q as <-. exact Z. }
  set (v := fpv q) in *. set (c := re q * eps / (1 - r * eps)) in *.
  assert (Lc : c < 1).
  { unfold c. apply (Rmult_lt_reg_r (1 - r * eps)); [lra|]. replace (re q * eps / (1 - r * eps) * (1 - r * eps)) with (re q * eps) by (field; lra). lra. }
  destruct (Rlt_dec 0 v) as [P|P].
  - rewrite (Rabs_pos_eq v) in B by lra. apply abs_bound in B. assert (0 < X - Y) by nra. unfold same_sign. lra.
  - assert (P' : v < 0) by lra. rewrite (Rabs_left v) in B by lra. apply abs_bound in B. assert (X - Y < 0) by nra. unfold same_sign. lra.
Qed.
Example C39_robust_fpt_demo : tracks (/ 1000) 1 (1001 / 1000) 1 /\ tracks (/ 1000) 0 (1 / 2) (1 / 2) /\
  rounds ((/ 1000) / (1 + / 1000)) (fun x => x * (1 + / 2000)) /\ 1 * / 1000 < 1 /\
  exists q, rf_sub (fun x => x * (1 + / 2000)) (mk_rf (1001 / 1000) 1) (mk_rf (1 / 2) 0) = Some q /\ re q * / 1000 < 1 - 1 * / 1000.
Proof.
  split; [|split; [|split; [|split]]].
  - exists 1. split; [rewrite Rpower_1; lra|rewrite Rabs_R1; lra].
  - exists 0. split; [rewrite Rpower_O; lra|rewrite Rabs_R0; lra].
  - intros x. replace (x * (1 + / 2000) - x) with (/ 2000 * x) by field. rewrite Rabs_mult, (Rabs_pos_eq (/ 2000)) by lra. pose proof (Rabs_pos x).
    apply Rmult_le_compat_r; lra.
  - lra.
  - unfold rf_sub. cbn [fpv re]. unfold is_neg, is_pos.
    destruct (Rlt_dec (1001 / 1000) 0) as [A1|A1]; [lra|]. destruct (Rlt_dec 0 (1 / 2)) as [A2|A2]; [|lra].
    destruct (Rlt_dec 0 (1001 / 1000)) as [A3|A3]; [|lra]. cbn [negb andb orb].
    destruct (Req_EM_T ((1001 / 1000 - 1 / 2) * (1 + / 2000)) 0) as [A5|A5]; [lra|]. eexists. split; [reflexivity|]. cbn [fpv re].
    rewrite Rabs_pos_eq; [lra|]. lra.
Qed.
(* The carried error is not a bound of the relative error in units of eps: the
   higher powers are missing, already for one product. *)
Theorem C39_robust_fpt_linear_refuted : forall eps, 0 < eps -> exists rnd x y X Y, rounds eps rnd /\
  within_eps (re x) eps (fpv x) X /\ within_eps (re y) eps (fpv y) Y /\
  ~ within_eps (re (rf_mul rnd x y)) eps (fpv (rf_mul rnd x y)) (X * Y).
Proof.
  intros eps E. exists (fun x => x * (1 + eps)), (mk_rf (1 + eps) 1), (mk_rf (1 + eps) 1), 1, 1.
  unfold within_eps, rf_mul. cbn [fpv re]. rewrite Rmult_1_r, Rabs_R1. split; [|split; [|split]].
  - intros x. replace (x * (1 + eps) - x) with (eps * x) by ring. rewrite Rabs_mult, (Rabs_pos_eq eps) by lra. lra.
  - rewrite Rabs_pos_eq by lra. lra.
  - rewrite Rabs_pos_eq by lra. lra.
  - intros H. apply Rabs_le_between in H || apply (abs_bound _ _) in H. nra.
Qed.
(* With cancellation the carried error does not bound the factors between the
   computed and the exact value either, however small eps is. *)
Theorem C39_robust_fpt_cancel_refuted : forall eps, 0 < eps <= / 1000 -> exists x y X Y q,
  tracks eps (re x) (fpv x) X /\ tracks eps (re y) (fpv y) Y /\ 0 < X - Y /\
  rf_sub (fun v => v) x y = Some q /\ ~ tracks eps (re q) (fpv q) (X - Y).
Proof.
  intros eps E. exists (mk_rf (1 + eps) 1), (mk_rf (1 - eps / 10) 0), 1, (1 - eps / 10).
  unfold rf_sub. cbn [fpv re]. unfold is_neg, is_pos.
  destruct (Rlt_dec (1 + eps) 0) as [A1|A1]; [lra|]. destruct (Rlt_dec 0 (1 - eps / 10)) as [A2|A2]; [|lra].
  destruct (Rlt_dec 0 (1 + eps)) as [A3|A3]; [|lra]. cbn [negb andb orb].
  destruct (Req_EM_T (1 + eps - (1 - eps / 10)) 0) as [A4|A4]; [lra|]. eexists. split; [|split; [|split; [|split; [reflexivity|]]]].
  - exists 1. split; [rewrite Rpower_1; lra|rewrite Rabs_R1; lra].
  - exists 0. split; [rewrite Rpower_O; lra|rewrite Rabs_R0; lra].
  - lra.
  - cbn [fpv re]. intros H. apply tracks_bounds in H; [|lra|lra]. destruct H as [_ H].
    replace ((1 + eps) * 1 + (1 - eps / 10) * 0) with (1 + eps) in H by ring.
    assert (Q : (1 + eps) / (1 + eps - (1 - eps / 10)) = (1 + eps) * 10 / (11 * eps)) by (field; lra). rewrite Q in H. clear Q.
    rewrite (Rabs_pos_eq ((1 + eps) * 10 / (11 * eps))) in H by (apply div_nonneg; lra).
    set (k := (1 + eps) * 10 / (11 * eps) + 1) in *.
    assert (Ek : k * eps = (1 + eps) * 10 / 11 + eps) by (unfold k; field; lra).
    assert (U : Rpower (1 + eps) k <= 3).
    { eapply Rle_trans; [|apply exp_le_3]. unfold Rpower. pose proof (ln_small eps ltac:(lra)) as LS. pose proof (ln_pos eps ltac:(lra)) as LP.
      assert (K0 : 0 <= k) by (unfold k; assert (0 <= (1 + eps) * 10 / (11 * eps)) by (apply div_nonneg; lra); lra).
      assert (B : k * ln (1 + eps) <= 1) by nra.
      destruct (Rle_lt_or_eq_dec _ _ B) as [B1|B1]; [apply Rlt_le, exp_increasing, B1|rewrite B1; lra]. }
    assert (H' : 1 + eps - (1 - eps / 10) <= (1 - (1 - eps / 10)) * 3).
    { eapply Rle_trans; [exact H|]. apply Rmult_le_compat_l; lra. }
    lra.
Qed.

Print Assumptions C39_eval1.
Print Assumptions C39_eval2.
Print Assumptions C39_eval3.
Print Assumptions C39_eval4.
Print Assumptions C39_eval4_exact.
Print Assumptions C39_robust_dif.
Print Assumptions C39_robust_fpt.
Print Assumptions C39_robust_fpt_cancel.
Print Assumptions C39_robust_fpt_sign.
Print Assumptions C39_robust_fpt_linear_refuted.
Print Assumptions C39_robust_fpt_cancel_refuted.
