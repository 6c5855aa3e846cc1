(* The cached state of sets of 45-degree polygons: sorted, clean, rectilinear, and the error
   data. C83 *)
From Coq Require Import Reals Lra Sorting.Sorted Permutation.
From Verif Require Import Base Units Outcome Scan90Spec Poly90Spec Poly90Model GeoSpec PolySpec Set90Spec ArbSpec ArbSums ArbOrder Ins45Spec Ins45Model Ins45Proofs Ins45Cor Scan45Model Scan45Base Bool45Spec Bool45Model Bool45Proofs Bool45Insert Snap45Spec Snap45Proofs Adapt45Spec Adapt45Model Adapt45Proofs Adapt45Eq Retry45Spec Retry45Model Retry45Proofs P_Bool45 P_Snap45 P_Adapt45 P_Retry45 Flags45Spec Flags45Model.
From Coq Require Import Lra.
Local Open Scope Z_scope.

(* ---------- C83 ---------- *)
Definition honest (s : cset) : Prop := marks_right (c_data s) (s_manhattan (c_set s)) (c_dirty s) (c_unsorted s).
Definition ints (s : cset) : Prop := int45 (c_data s).
(* sets made by insertion, the boolean operators, clean, self_intersect, self_xor, scale_up
   and clear, in any order, each from sets made before *)
Inductive history (srt : list v45 -> list v45) : cset -> Prop :=
| h_new : history srt c_new
| h_clear s : history srt s -> history srt (c_clear s)
| h_rect hole q s : history srt s -> rect_ok q -> history srt (c_insert_rect hole q s)
| h_poly w hole g s t : history srt s -> gpoly_45 g -> c_insert_poly w hole g s = Ok t -> history srt t
| h_set hole t s : history srt s -> history srt t -> history srt (c_insert_set hole t s)
| h_sort s : history srt s -> history srt (c_sort srt s)
| h_clean s t : history srt s -> ints s -> c_clean srt s = Fine t -> history srt t
| h_self o s t : history srt s -> ints s -> c_self srt o s = Fine t -> history srt t
| h_bool o s t u : history srt s -> history srt t -> ints s -> ints t -> c_bool srt o s t = Fine u -> history srt u
| h_scale_up k s : history srt s -> 0 < k -> history srt (c_scale_up k s).

Lemma sort_honest srt s : sorter srt -> honest s -> honest (c_sort srt s) /\ c_unsorted (c_sort srt s) = false /\ Permutation (c_data s) (c_data (c_sort srt s)) /\ (forall x y, depth45 (c_data (c_sort srt s)) x y = depth45 (c_data s) x y) /\
  s_manhattan (c_set (c_sort srt s)) = s_manhattan (c_set s) /\ c_dirty (c_sort srt s) = c_dirty s /\ c_err (c_sort srt s) = c_err s.
Proof.
  intros S H. unfold c_sort. destruct (c_unsorted s) eqn:U; [|split; [exact H|]; split; [exact U|]; split; [apply Permutation_refl|auto]].
  destruct (S (c_data s)) as [P O]. unfold honest, c_data in *. cbn [c_set s_data s_manhattan c_dirty c_unsorted c_err]. destruct H as [B [R [_ D]]].
  assert (DE : forall x y, depth45 (srt (s_data (c_set s))) x y = depth45 (s_data (c_set s)) x y) by (intros x y; unfold depth45; symmetry; apply tot_perm, P).
  split; [|split; [reflexivity|split; [exact P|split; [exact DE|split; [reflexivity|split; reflexivity]]]]]. split; [|split; [|split]].
  - destruct B as [B1 [B2 B3]]. split; [eapply Permutation_Forall; [exact P|exact B1]|]. split; [intros r b Hr; rewrite <- (B2 r b Hr)|intros x; rewrite <- (B3 x)]; symmetry; apply tot_perm, P.
  - intros M. eapply Permutation_Forall; [exact P|exact (R M)].
  - intros _. exact O.
  - intros N x y. rewrite DE. apply D, N.
Qed.
Lemma ints_sort srt s : sorter srt -> honest s -> ints s -> ints (c_sort srt s).
Proof. intros S H I. destruct (sort_honest srt s S H) as [_ [_ [P _]]]. unfold ints, int45 in *. eapply Permutation_Forall; [exact P|exact I]. Qed.
Lemma unary_marks srt o s : sorter srt -> honest s -> ints s -> match c_unary srt o s with
  | Fine u => honest u /\ c_dirty u = false /\ c_unsorted u = false /\ c_err u = c_err s /\
      ((o = SelfXor45 -> s_manhattan (c_set s) = true -> forall x y, 0 <= depth45 (c_data s) x y) -> forall x y, depth45 (c_data u) x y = if self_covers o (depth45 (c_data s) x y) then 1 else 0)
  | Throw => s_manhattan (c_set s) = false
  | Bad => False
  end.
Proof.
  intros S H I. unfold c_unary. destruct (s_manhattan (c_set s)) eqn:M.
  - unfold self_set45. rewrite M. destruct H as [B [R _]]. destruct (rect_self o (c_set s) (conj B (fun _ => R M)) M I) as [t [E [_ [G1 [G2 [G3 G4]]]]]]. rewrite E. cbn [rbind c_dirty c_unsorted c_err]. unfold honest, c_data, marks_right. cbn [c_set c_dirty c_unsorted].
    split; [|split; [reflexivity|split; [reflexivity|split; [reflexivity|]]]].
    + split; [exact G2|]. split; [apply G4|]. split; [intros _; exact G3|]. intros _ x y. rewrite G1. destruct (_ && _); auto.
    + intros N. pose proof (C80_self o (c_set s) (srt (c_data s)) B R I (proj1 (S _)) (proj2 (S _)) (fun a _ => N a eq_refl)) as C. unfold self_set45 in C. rewrite M, E in C. apply C.
  - destruct (sort_honest srt s S H) as [[B [R [O D]]] [U [P [DE [ME [_ _]]]]]]. unfold self_set45. rewrite ME, M. pose proof (C78_self o _ _ B (Permutation_refl _) (O U)) as C. unfold c_data in *. destruct (unary45 _ _) as [[r f]| |]; cbn [rbind fst snd]; [|reflexivity|exact C].
    destruct C as [C1 [C2 [C3 C4]]]. unfold honest, c_data, marks_right. cbn [c_set c_dirty c_unsorted c_err s_data s_manhattan]. split; [|split; [reflexivity|split; [reflexivity|split; [reflexivity|]]]].
    + split; [exact C2|]. split; [apply C4|]. split; [intros _; apply strict_in_order, C3|]. intros _ x y. rewrite C1. destruct (self_covers _ _); auto.
    + intros _ x y. rewrite C1, DE. reflexivity.
Qed.

(* clean() gives what was covered, keeps the error data, and leaves the set marked as clean
   and sorted; on such a set it does nothing. *)
Theorem C83_clean : forall srt s, sorter srt -> honest s -> ints s -> match c_clean srt s with
  | Fine u => honest u /\ c_dirty u = false /\ c_unsorted u = false /\ c_err u = c_err s /\
      (forall x y, depth45 (c_data u) x y = if covered45 (c_data s) x y then 1 else 0) /\ c_clean srt u = Fine u
  | Throw => s_manhattan (c_set s) = false /\ c_dirty s = true
  | Bad => False
  end.
Proof.
  intros srt s S H I. unfold c_clean at 1. assert (E : (if c_unsorted s then c_sort srt s else s) = c_sort srt s) by (unfold c_sort; destruct (c_unsorted s); reflexivity). rewrite E. clear E.
  destruct (sort_honest srt s S H) as [H1 [U [P [DE [ME [DI ER]]]]]]. pose proof (ints_sort srt s S H I) as I1. destruct (c_dirty (c_sort srt s)) eqn:D.
  - pose proof (unary_marks srt SelfOr45 _ S H1 I1) as C. destruct (c_unary srt SelfOr45 (c_sort srt s)) as [u| |]; cbn [rbind]; [|rewrite <- ME; split; [exact C|congruence]|exact C]. destruct C as [C1 [C2 [C3 [C4 C5]]]].
    assert (Q : mk_cset (c_set u) false (c_unsorted u) (c_err u) = u) by (destruct u as [u1 u2 u3 u4]; cbn [c_dirty c_set c_unsorted c_err] in *; subst u2; reflexivity). rewrite Q.
    split; [exact C1|]. split; [exact C2|]. split; [exact C3|]. split; [congruence|]. split; [intros x y; rewrite (C5 ltac:(discriminate)), DE; reflexivity|]. unfold c_clean. rewrite C3, C2. reflexivity.
  - split; [exact H1|]. split; [exact D|]. split; [exact U|]. split; [exact ER|]. split.
    + intros x y. unfold covered45. rewrite <- DE. destruct H1 as [_ [_ [_ H1]]]. destruct (H1 D x y) as [-> | ->]; reflexivity.
    + unfold c_clean. rewrite U, D. reflexivity.
Qed.
Print Assumptions C83_clean.
Theorem C83_self : forall srt o s, sorter srt -> honest s -> ints s -> match c_self srt o s with
  | Fine u => honest u /\ c_dirty u = false /\ c_unsorted u = false /\ c_err u = c_err s /\
      ((o = SelfXor45 -> s_manhattan (c_set s) = true -> forall x y, 0 <= depth45 (c_data s) x y) -> forall x y, depth45 (c_data u) x y = if self_covers o (depth45 (c_data s) x y) then 1 else 0)
  | Throw => s_manhattan (c_set s) = false
  | Bad => False
  end.
Proof.
  intros srt o s S H I. unfold c_self. destruct (sort_honest srt s S H) as [H1 [U [P [DE [ME [DI ER]]]]]]. pose proof (unary_marks srt o _ S H1 (ints_sort srt s S H I)) as C. destruct (c_unary srt o (c_sort srt s)) as [u| |]; cbn [rbind]; [|congruence|exact C]. destruct C as [C1 [C2 [C3 [C4 C5]]]].
  assert (Q : mk_cset (c_set u) false (c_unsorted u) (c_err u) = u) by (destruct u as [u1 u2 u3 u4]; cbn [c_dirty c_set c_unsorted c_err] in *; subst u2; reflexivity). rewrite Q.
  split; [exact C1|]. split; [exact C2|]. split; [exact C3|]. split; [congruence|]. intros N x y. rewrite C5, DE; [reflexivity|]. intros O M a b. rewrite DE. apply (N O). congruence.
Qed.
Print Assumptions C83_self.
(* The operators of two sets, whatever their marks are: neither has to be cleaned or sorted
   before. *)
Theorem C83_boolean : forall srt o s t, sorter srt -> honest s -> honest t -> ints s -> ints t -> match c_bool srt o s t with
  | Fine u => honest u /\ c_dirty u = false /\ c_unsorted u = false /\ c_err u = c_err s ++ c_err t /\
      forall x y, depth45 (c_data u) x y = if op_covers o (covered45 (c_data s) x y) (covered45 (c_data t) x y) then 1 else 0
  | Throw => s_manhattan (c_set s) && s_manhattan (c_set t) = false
  | Bad => False
  end.
Proof.
  intros srt o s t S Hs Ht Is It. unfold c_bool. destruct (s_manhattan (c_set s) && s_manhattan (c_set t)) eqn:M.
  - unfold op_set45. rewrite M. apply andb_true_iff in M as [M1 M2]. destruct Hs as [Bs [Rs _]], Ht as [Bt [Rt _]]. destruct (rect_boolean o (c_set s) (c_set t) (conj Bs Rs) (conj Bt Rt) M1 M2 Is It) as [out [E [_ [G1 [G2 [G3 G4]]]]]]. rewrite E. cbn [rbind]. unfold honest, c_data, marks_right. cbn [c_set c_dirty c_unsorted c_err].
    split; [|split; [reflexivity|split; [reflexivity|split; [reflexivity|exact G1]]]]. split; [exact G2|]. split; [apply G4|]. split; [intros _; exact G3|]. intros _ x y. rewrite G1. destruct (op_covers _ _ _); auto.
  - destruct (sort_honest srt s S Hs) as [[Bs [Rs [Os Ds]]] [Us [Ps [DEs [MEs [_ _]]]]]]. destruct (sort_honest srt t S Ht) as [[Bt [Rt [Ot Dt]]] [Ut [Pt [DEt [MEt [_ _]]]]]].
    pose proof (C80_boolean o _ _ _ _ Bs Rs Bt Rt (ints_sort srt s S Hs Is) (ints_sort srt t S Ht It) (Permutation_refl _) (Permutation_refl _) (Os Us) (Ot Ut)) as C. unfold c_data in *. destruct (op_set45 _ _ _ _ _) as [u| |]; cbn [rbind]; [|reflexivity|exact C].
    destruct C as [C1 [C2 [C3 C4]]]. unfold honest, c_data, marks_right. cbn [c_set c_dirty c_unsorted c_err].
    assert (C5 : forall x y, depth45 (s_data u) x y = if op_covers o (covered45 (s_data (c_set s)) x y) (covered45 (s_data (c_set t)) x y) then 1 else 0) by (intros x y; rewrite C1; unfold covered45; rewrite DEs, DEt; reflexivity).
    split; [|split; [reflexivity|split; [reflexivity|split; [reflexivity|exact C5]]]]. split; [exact C2|]. split; [apply C4|]. split; [intros _; exact C3|]. intros _ x y. rewrite C5. destruct (op_covers _ _ _); auto.
Qed.
Print Assumptions C83_boolean.
(* In every history the marks are right. *)
Theorem C83_history : forall srt s, sorter srt -> history srt s -> honest s.
Proof.
  intros srt s S H. induction H as [|s H IH|hole q s H IH Q|w hole g s t H IH G E|hole t s H IH H' IH'|s H IH|s t H IH I E|o s t H IH I E|o s t u H IH H' IH' I I' E|k s H IH K].
  - split; [split; [constructor|split; reflexivity]|]. split; [intros _; constructor|]. split; [intros _; constructor|]. intros _ x y. left. reflexivity.
  - split; [split; [constructor|split; reflexivity]|]. split; [intros _; constructor|]. split; [intros _; constructor|]. intros _ x y. left. reflexivity.
  - destruct IH as [B [R _]]. destruct (rect45_bvalid hole q (c_set s) Q (conj B R)) as [B' R']. split; [exact B'|]. split; [exact R'|]. split; discriminate.
  - unfold c_insert_poly in E. destruct (insert_polygon45 w hole g (c_set s)) as [t'| |] eqn:P; try discriminate. injection E as <-. destruct IH as [B [R _]]. destruct (polygon45_bvalid w hole g (c_set s) t' P G (conj B R)) as [B' R']. split; [exact B'|]. split; [exact R'|]. split; discriminate.
  - destruct IH as [B [R _]], IH' as [B1 [R1 _]]. destruct (set45_bvalid hole (c_set t) (c_set s) (conj B1 R1) (conj B R)) as [B' R']. split; [exact B'|]. split; [exact R'|]. split; discriminate.
  - apply sort_honest; assumption.
  - pose proof (C83_clean srt s S IH I) as C. rewrite E in C. apply C.
  - pose proof (C83_self srt o s S IH I) as C. rewrite E in C. apply C.
  - pose proof (C83_boolean srt o s t S IH IH' I I') as C. rewrite E in C. apply C.
  - destruct IH as [B [R [O D]]]. unfold honest, c_scale_up, c_data, marks_right. cbn [c_set s_data s_manhattan c_dirty c_unsorted]. split; [apply scale_boundary; assumption|]. split; [|split].
    + intros M. unfold rectilinear45. apply Forall_map. exact (R M).
    + intros U. apply scale_order; [exact K|exact (O U)].
    + intros U x y. assert (KR : (0 < IZR k)%R) by (apply IZR_lt; exact K).
      pose proof (scale_depth k (c_data s) (x / IZR k) (y / IZR k) K) as E. replace (IZR k * (x / IZR k))%R with x in E by (field; lra). replace (IZR k * (y / IZR k))%R with y in E by (field; lra). unfold c_data in E. rewrite E. apply D, U.
Qed.
Print Assumptions C83_history.

(* Refuted: that a set filled by get_error_data can be used. It is not marked as unsorted or
   dirty, so clean() leaves it as it is, and the sweep, which then gets vertices that are
   not in order, runs into an undefined state. The error data is that of C82_demo. *)
Definition meet_errors : list v45 := match retry45 meet_rings sort_v 1 (sort_v (diamond 0)) (sort_v (diamond 3)) with Fine (_, _, e) => e | _ => [] end.
Definition erroneous : cset := mk_cset empty45 false false meet_errors.
Definition one_diamond : cset := mk_cset (mk_set45 (diamond 1) false) true true [].
Lemma new_honest e : honest (mk_cset empty45 false false e).
Proof. split; [split; [constructor|split; reflexivity]|]. split; [intros _; constructor|]. split; [intros _; constructor|]. intros _ x y. left. reflexivity. Qed.
Ltac int_tac := unfold Flags45Model.c_data, int45; match goal with |- Forall _ ?l => let t := eval vm_compute in l in change l with t end; repeat (apply Forall_cons || apply Forall_nil); cbn [v_pt px py]; unfold is_int, INT_MIN, INT_MAX; lia.
Theorem C83_get_error_data_refuted : exists srt s p t, sorter srt /\ honest s /\ honest p /\ honest t /\ ints (c_get_error_data s p) /\ ints t /\
  (exists d, retry45 meet_rings srt 1 (sort_v (diamond 0)) (sort_v (diamond 3)) = Fine (d, false, c_err s)) /\ c_error_count s = 2%nat /\
  ~ in_order (c_data (c_get_error_data s p)) /\ c_clean srt (c_get_error_data s p) = Fine (c_get_error_data s p) /\
  c_bool srt And45 (c_get_error_data s p) t = Bad.
Proof.
  exists sort_v, erroneous, c_new, one_diamond. split; [apply sort_sorter|]. split; [apply new_honest|]. split; [apply new_honest|].
  split; [split; [apply diamond_boundary|]; split; [discriminate|]; split; discriminate|]. split; [unfold ints; int_tac|]. split; [unfold ints; int_tac|].
  split; [eexists; vm_compute; reflexivity|]. split; [vm_compute; reflexivity|]. split.
  - intros S. assert (T : c_data (c_get_error_data erroneous c_new) = ltac:(let t := eval vm_compute in (c_data (c_get_error_data erroneous c_new)) in exact t)) by (vm_compute; reflexivity). rewrite T in S. apply StronglySorted_inv in S as [_ S]. rewrite Forall_forall in S. specialize (S (mk_v45 (mk_pt 1 (-3)) 0 1 0 1) ltac:(cbn; tauto)). cbn [v_pt] in S. destruct S as [S|S]; [unfold pt_lt in S; cbn [px py] in S; lia|discriminate S].
  - split; vm_compute; reflexivity.
Qed.
Print Assumptions C83_get_error_data_refuted.
(* Refuted: that set(value) takes over a set of vertices. The mark for rectilinear stays, and
   with it clean() loses all that has only diagonal edges. *)
Theorem C83_set_refuted : exists srt v u, sorter srt /\ boundary45 v /\ c_clean srt (c_set_value v c_new) = Fine u /\ c_data u = [] /\ covered45 v 0 0 = true.
Proof.
  exists sort_v, (diamond 0). eexists. split; [apply sort_sorter|]. split; [apply diamond_boundary|]. split; [vm_compute; reflexivity|]. split; [reflexivity|].
  unfold covered45. assert (T : diamond 0 = ltac:(let t := eval vm_compute in (diamond 0) in exact t)) by (vm_compute; reflexivity). rewrite T. places. reflexivity.
Qed.
Print Assumptions C83_set_refuted.
(* Refuted: that scale_up scales the error data too, and that assigning a rectangle makes a
   set without errors, or one that is marked as rectilinear. *)
Theorem C83_scale_up_errors_refuted : exists s k, honest s /\ covered45 (c_err s) (1 + / 2) 3 = true /\
  covered45 (c_err (c_scale_up k s)) (IZR k * (1 + / 2)) (IZR k * 3) = false /\ c_error_count (c_scale_up k s) = 2%nat.
Proof.
  exists erroneous, 5. split; [apply new_honest|]. assert (T : c_err erroneous = ltac:(let t := eval vm_compute in (c_err erroneous) in exact t)) by (vm_compute; reflexivity). unfold c_scale_up. cbn [c_err]. rewrite T. split; [|split; [|vm_compute; reflexivity]]; unfold covered45; places; reflexivity.
Qed.
Print Assumptions C83_scale_up_errors_refuted.
Theorem C83_assign_refuted : exists s t q, honest s /\ honest t /\ rect_ok q /\ c_error_count (c_assign_rect q s) = 2%nat /\ s_manhattan (c_set (c_assign_rect q t)) = false.
Proof.
  exists erroneous, one_diamond, (mk_rect 0 1 0 1). split; [apply new_honest|]. split; [split; [apply diamond_boundary|]; split; [discriminate|]; split; discriminate|]. split; [unfold rect_ok; cbn [xl xh yl yh]; lia|]. split; vm_compute; reflexivity.
Qed.
Print Assumptions C83_assign_refuted.

(* a history: the overlap of two squares, cut with a third one, scaled *)
Example C83_demo : exists s, history sort_v s /\ c_dirty s = false /\ c_unsorted s = false /\ length (c_data s) = 4%nat.
Proof.
  set (a := c_insert_rect false (mk_rect 0 4 0 4) c_new). set (b := c_insert_rect false (mk_rect 2 6 2 6) (c_insert_rect false (mk_rect 1 3 1 3) c_new)).
  assert (A : history sort_v a) by (apply h_rect; [apply h_new|unfold rect_ok; cbn [xl xh yl yh]; lia]).
  assert (B : history sort_v b) by (apply h_rect; [apply h_rect; [apply h_new|]|]; unfold rect_ok; cbn [xl xh yl yh]; lia).
  assert (E : exists u, c_self sort_v SelfAnd45 b = Fine u) by (eexists; vm_compute; reflexivity). destruct E as [u E].
  assert (U : history sort_v u) by (apply (h_self _ SelfAnd45 b); [exact B|unfold ints, b; int_tac|exact E]).
  assert (F : exists w, c_bool sort_v And45 a u = Fine w /\ c_dirty w = false /\ c_unsorted w = false /\ length (c_data w) = 4%nat).
  { revert E. match goal with |- ?l = _ -> _ => let t := eval vm_compute in l in change l with t end. intros E. injection E as <-. eexists. split; [vm_compute; reflexivity|]. auto. }
  destruct F as [w [F1 [F2 [F3 F4]]]]. exists (c_scale_up 3 w). split.
  - apply h_scale_up; [|lia]. apply (h_bool _ And45 a u); [exact A|exact U|unfold ints, a; int_tac| |exact F1]. revert E. match goal with |- ?l = _ -> _ => let t := eval vm_compute in l in change l with t end. intros E. injection E as <-. unfold ints. int_tac.
  - split; [exact F2|]. split; [exact F3|]. unfold c_scale_up, c_data in *. cbn [c_set s_data]. rewrite map_length. exact F4.
Qed.
