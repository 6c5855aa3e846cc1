(* Lemmas about distances, areas and orders of points and rectangles. *)
From Verif Require Import Base Scan90Spec Set90Spec Set90Model GeoSpec IvlModel IvlProofs RectModel RectProofs RectArith.
From Coq Require Import Qround.

(* ---------- points ---------- *)
Lemma pt_eqb_spec p q : pt_eqb p q = true <-> p = q.
Proof. destruct p as [a b], q as [c d]. unfold pt_eqb; cbn [px py]. split; [intros H; f_equal; lia|intros H; injection H as -> ->; lia]. Qed.
Lemma pt_less_irrefl p : pt_less p p = false.
Proof. unfold pt_less. lia. Qed.
Lemma pt_less_trans p q r : pt_less p q = true -> pt_less q r = true -> pt_less p r = true.
Proof. unfold pt_less. lia. Qed.
Lemma pt_less_total p q : pt_less p q = true \/ p = q \/ pt_less q p = true.
Proof.
  destruct (pt_eqb p q) eqn:E; [right; left; apply pt_eqb_spec; exact E|]. unfold pt_eqb, pt_less in *. lia.
Qed.
Lemma pt_less_lex p q : pt_less p q = true <-> px p < px q \/ (px p = px q /\ py p < py q).
Proof. unfold pt_less. lia. Qed.
Lemma pt_pair_inv x y p : obind (chk x) (fun x' => obind (chk y) (fun y' => Ok (mk_pt x' y'))) = Ok p -> p = mk_pt x y /\ is_int x /\ is_int y.
Proof.
  intros H. apply obind_inv in H as [a [H1 H]]. apply obind_inv in H as [b [H2 H]]. injection H as <-.
  apply chk_inv in H1 as [-> ?]. apply chk_inv in H2 as [-> ?]. auto.
Qed.
Lemma pt_pair_ok x y : is_int x -> is_int y -> obind (chk x) (fun x' => obind (chk y) (fun y' => Ok (mk_pt x' y'))) = Ok (mk_pt x y).
Proof. intros. rewrite chk_ok by assumption. cbn [obind]. rewrite chk_ok by assumption. reflexivity. Qed.
Lemma pt_convolve_inv p q r : pt_convolve p q = Ok r <-> r = mk_pt (px p + px q) (py p + py q) /\ is_int (px p + px q) /\ is_int (py p + py q).
Proof. split; [apply pt_pair_inv|intros [-> [? ?]]; apply pt_pair_ok; assumption]. Qed.
Lemma pt_deconvolve_inv p q r : pt_deconvolve p q = Ok r <-> r = mk_pt (px p - px q) (py p - py q) /\ is_int (px p - px q) /\ is_int (py p - py q).
Proof. split; [apply pt_pair_inv|intros [-> [? ?]]; apply pt_pair_ok; assumption]. Qed.
Lemma pt_convolve_inverse p q r : pt_int p -> pt_convolve p q = Ok r -> pt_deconvolve r q = Ok p.
Proof.
  intros [I J] H. apply pt_convolve_inv in H as [-> _]. apply pt_deconvolve_inv. cbn [px py]. destruct p as [a b]; cbn [px py] in *.
  replace (a + px q - px q) with a by lia. replace (b + py q - py q) with b by lia. auto.
Qed.
Lemma pt_deconvolve_inverse p q r : pt_int p -> pt_deconvolve p q = Ok r -> pt_convolve r q = Ok p.
Proof.
  intros [I J] H. apply pt_deconvolve_inv in H as [-> _]. apply pt_convolve_inv. cbn [px py]. destruct p as [a b]; cbn [px py] in *.
  replace (a - px q + px q) with a by lia. replace (b - py q + py q) with b by lia. auto.
Qed.
Lemma pt_convolve_comm p q : pt_convolve p q = pt_convolve q p.
Proof. unfold pt_convolve. rewrite (Z.add_comm (px p)), (Z.add_comm (py p)). reflexivity. Qed.
Lemma pt_move_inv p o d r : pt_move p o d = Ok r <->
  r = match o with Horizontal => mk_pt (px p + d) (py p) | Vertical => mk_pt (px p) (py p + d) end /\ is_int (pt_get p o + d).
Proof.
  unfold pt_move. split.
  - intros H. apply obind_inv in H as [c [H1 H]]. apply chk_inv in H1 as [-> I]. injection H as <-. destruct o; auto.
  - intros [-> I]. rewrite chk_ok by exact I. destruct o; reflexivity.
Qed.
Lemma pt_move_inverse p o d r : pt_int p -> pt_move p o d = Ok r -> pt_move r o (- d) = Ok p.
Proof.
  intros [I J] H. apply pt_move_inv in H as [-> _]. apply pt_move_inv. destruct p as [a b]; cbn [px py] in *.
  destruct o; cbn [pt_get px py]; [replace (a + d + - d) with a by lia|replace (b + d + - d) with b by lia]; auto.
Qed.
Lemma pt_scale_up_inv p k r : is_int k -> (pt_scale_up p k = Ok r <-> r = mk_pt (px p * k) (py p * k) /\ is_int (px p * k) /\ is_int (py p * k)).
Proof.
  intros K. unfold pt_scale_up. rewrite wrap32_id by exact K. split; [apply pt_pair_inv|intros [-> [? ?]]; apply pt_pair_ok; assumption].
Qed.
(* scale_down rounds to the nearest integer, ties upwards *)
Lemma round_div_spec x k : 0 < k -> 2 * x - k < 2 * k * round_div x k <= 2 * x + k.
Proof. intros K. unfold round_div. pose proof (Z.div_mod (2 * x + k) (2 * k) ltac:(lia)). pose proof (Z.mod_pos_bound (2 * x + k) (2 * k) ltac:(lia)). lia. Qed.
Lemma round_div_mul x k : 0 < k -> round_div (x * k) k = x.
Proof. intros K. pose proof (round_div_spec (x * k) k K). nia. Qed.
Lemma round_div_mono x y k : 0 < k -> x <= y -> round_div x k <= round_div y k.
Proof. intros K L. unfold round_div. apply Z.div_le_mono; lia. Qed.
Lemma round_div_int x k : 0 < k -> is_int x -> is_int (round_div x k).
Proof. intros K [A B]. pose proof (round_div_spec x k K). unfold is_int, INT_MIN, INT_MAX in *. nia. Qed.
Lemma pt_scale_inverse p k r : 0 < k -> is_int k -> pt_scale_up p k = Ok r -> pt_scale_down r k = p.
Proof.
  intros K I H. apply pt_scale_up_inv in H as [-> _]; [|exact I]. unfold pt_scale_down; cbn [px py]. rewrite !round_div_mul by exact K. destruct p; reflexivity.
Qed.
Lemma Qfloor_div x k : 0 < k -> round_div x k = Qfloor (inject_Z x / inject_Z k + (1 # 2)).
Proof.
  intros K. pose proof (round_div_spec x k K) as R. set (n := round_div x k) in *. clearbody n.
  assert (KQ : (0 < inject_Z k)%Q) by (rewrite Zlt_Qlt in K; exact K).
  assert (L1 : (inject_Z n <= inject_Z x / inject_Z k + (1 # 2))%Q).
  { assert (E : (inject_Z n - (1 # 2) <= inject_Z x / inject_Z k)%Q).
    { apply Qle_shift_div_l; [exact KQ|]. assert (L : 2 * k * n <= 2 * x + k) by lia. rewrite Zle_Qle in L. rewrite inject_Z_plus, !inject_Z_mult in L. change (inject_Z 2) with 2%Q in L. lra. }
    lra. }
  assert (L2 : (inject_Z x / inject_Z k + (1 # 2) < inject_Z (n + 1))%Q).
  { assert (E : (inject_Z x / inject_Z k < inject_Z n + (1 # 2))%Q).
    { apply Qlt_shift_div_r; [exact KQ|]. assert (L : 2 * x - k < 2 * k * n) by lia. rewrite Zlt_Qlt in L. rewrite injZ_sub, !inject_Z_mult in L. change (inject_Z 2) with 2%Q in L. lra. }
    rewrite inject_Z_plus. change (inject_Z 1) with 1%Q. lra. }
  pose proof (Qfloor_le (inject_Z x / inject_Z k + (1 # 2))) as F1. pose proof (Qlt_floor (inject_Z x / inject_Z k + (1 # 2))) as F2.
  set (m := Qfloor (inject_Z x / inject_Z k + (1 # 2))) in *. clearbody m.
  assert (G1 : (inject_Z n < inject_Z (m + 1))%Q) by lra. assert (G2 : (inject_Z m < inject_Z (n + 1))%Q) by lra.
  rewrite Zlt_Q in G1, G2. lia.
Qed.

(* distance of points *)
Lemma pt_dist_o_eq p q o : is_int (pt_get p o - pt_get q o) -> pt_dist_o p q o = Ok (Z.abs (pt_get p o - pt_get q o)).
Proof.
  intros I. unfold pt_dist_o. rewrite chk_ok by exact I. cbn [obind]. unfold is_int, INT_MIN, INT_MAX in I.
  destruct (pt_get p o - pt_get q o <? 0) eqn:E; [rewrite chk64_ok by lia|]; f_equal; lia.
Qed.
Lemma pt_dist_o_defined p q o : (exists d, pt_dist_o p q o = Ok d) <-> is_int (pt_get p o - pt_get q o).
Proof.
  split; [|intros I; rewrite pt_dist_o_eq by exact I; eexists; reflexivity].
  intros [d H]. unfold pt_dist_o in H. apply obind_inv in H as [e [H _]]. apply chk_inv in H. tauto.
Qed.
Lemma pt_dist_o_inv p q o d : pt_dist_o p q o = Ok d -> d = Z.abs (pt_get p o - pt_get q o) /\ is_int (pt_get p o - pt_get q o).
Proof. intros H. assert (I : is_int (pt_get p o - pt_get q o)) by (apply pt_dist_o_defined; eexists; exact H). rewrite pt_dist_o_eq in H by exact I. split; [congruence|exact I]. Qed.
Definition near (p q : point) : Prop := is_int (px p - px q) /\ is_int (py p - py q).
Lemma pt_manhattan_inv p q d : pt_manhattan p q = Ok d <-> d = Z.abs (px p - px q) + Z.abs (py p - py q) /\ near p q.
Proof.
  unfold pt_manhattan. split.
  - intros H. apply obind_inv in H as [a [H1 H]]. apply obind_inv in H as [b [H2 H]]. apply pt_dist_o_inv in H1 as [-> I]. apply pt_dist_o_inv in H2 as [-> J].
    apply chk64_inv in H as [-> _]. split; [reflexivity|split; assumption].
  - intros [-> [I J]]. rewrite (pt_dist_o_eq p q Horizontal) by exact I. cbn [obind]. rewrite (pt_dist_o_eq p q Vertical) by exact J. cbn [obind pt_get].
    apply chk64_ok. unfold is_int, INT_MIN, INT_MAX in *. lia.
Qed.
Lemma manhattan_metric : forall p q r dpq dqr dpr, pt_manhattan p q = Ok dpq -> pt_manhattan q r = Ok dqr -> pt_manhattan p r = Ok dpr ->
  0 <= dpq /\ (dpq = 0 <-> p = q) /\ dpr <= dpq + dqr.
Proof.
  intros p q r a b c H1 H2 H3. apply pt_manhattan_inv in H1 as [-> _]. apply pt_manhattan_inv in H2 as [-> _]. apply pt_manhattan_inv in H3 as [-> _].
  split; [lia|]. split; [|lia]. destruct p as [p1 p2], q as [q1 q2]; cbn [px py]. split; [intros H; f_equal; lia|intros H; injection H as -> ->; lia].
Qed.
Lemma manhattan_sym p q d : is_int (px q - px p) -> is_int (py q - py p) -> pt_manhattan p q = Ok d -> pt_manhattan q p = Ok d.
Proof. intros A B H. apply pt_manhattan_inv in H as [-> _]. apply pt_manhattan_inv. split; [lia|split; assumption]. Qed.
Lemma manhattan_l1 p q d : pt_manhattan p q = Ok d -> (inject_Z d == l1_dist (qpt p) (qpt q))%Q.
Proof.
  intros H. apply pt_manhattan_inv in H as [-> _]. unfold l1_dist, qpt; cbn [fst snd]. rewrite inject_Z_plus.
  rewrite <- !injZ_sub. assert (E : forall z, (Qabs (inject_Z z) == inject_Z (Z.abs z))%Q) by reflexivity. rewrite !E. reflexivity.
Qed.
Lemma manhattan_overflow_refuted : exists p q, pt_int p /\ pt_int q /\ pt_manhattan p q = Overflow.
Proof. exists (mk_pt INT_MAX 0), (mk_pt INT_MIN 0). split; [vm_compute; repeat split; discriminate|]. split; [vm_compute; repeat split; discriminate|]. reflexivity. Qed.
Lemma pt_dist_sq_inv p q d : pt_dist_sq p q = Ok d <->
  d = (px p - px q) * (px p - px q) + (py p - py q) * (py p - py q) /\ near p q /\ d < 2 ^ 63.
Proof.
  unfold pt_dist_sq. split.
  - intros H. apply obind_inv in H as [a [H1 H]]. apply obind_inv in H as [b [H2 H]]. apply pt_dist_o_inv in H1 as [-> I]. apply pt_dist_o_inv in H2 as [-> J].
    apply obind_inv in H as [c [H3 H]]. apply obind_inv in H as [e [H4 H]]. apply chk64_inv in H3 as [-> _]. apply chk64_inv in H4 as [-> _]. apply chk64_inv in H as [-> K].
    rewrite !Z.abs_square in *. cbn [pt_get] in *. split; [reflexivity|]. split; [split; assumption|lia].
  - intros [-> [[I J] L]]. rewrite (pt_dist_o_eq p q Horizontal) by exact I. cbn [obind]. rewrite (pt_dist_o_eq p q Vertical) by exact J. cbn [obind pt_get].
    rewrite !Z.abs_square. pose proof (Z.square_nonneg (px p - px q)). pose proof (Z.square_nonneg (py p - py q)).
    rewrite chk64_ok by lia. cbn [obind]. rewrite chk64_ok by lia. cbn [obind]. apply chk64_ok. lia.
Qed.
Lemma dist_sq_overflow_refuted : exists p q, pt_int p /\ pt_int q /\ near p q /\ pt_dist_sq p q = Overflow.
Proof. exists (mk_pt INT_MIN INT_MIN), (mk_pt 0 0). split; [vm_compute; repeat split; discriminate|]. split; [vm_compute; repeat split; discriminate|]. split; [vm_compute; repeat split; discriminate|]. reflexivity. Qed.
(* coordinates below 2^30 are safe *)
Definition small (p : point) : Prop := - 2 ^ 30 <= px p <= 2 ^ 30 - 1 /\ - 2 ^ 30 <= py p <= 2 ^ 30 - 1.
Lemma dist_sq_small p q : small p -> small q -> pt_dist_sq p q = Ok ((px p - px q) * (px p - px q) + (py p - py q) * (py p - py q)).
Proof.
  intros [A B] [C D]. apply pt_dist_sq_inv. split; [reflexivity|]. unfold near, is_int, INT_MIN, INT_MAX. split; [lia|].
  assert (- (2 ^ 31 - 1) <= px p - px q <= 2 ^ 31 - 1) by lia. assert (- (2 ^ 31 - 1) <= py p - py q <= 2 ^ 31 - 1) by lia. nia.
Qed.

(* ---------- measures of rectangles ---------- *)
Lemma r_delta_eq r o : rect_int r -> r_delta r o = Ok (hi (r_get r o) - lo (r_get r o)).
Proof. intros I. apply rect_int_ivls in I as [I J]. unfold r_delta. apply delta_spec. destruct o; assumption. Qed.
Lemma r_perimeter_eq r : rect_int r -> r_perimeter r = Ok (2 * ((xh r - xl r) + (yh r - yl r))) /\ r_half_perimeter r = Ok ((xh r - xl r) + (yh r - yl r)).
Proof.
  intros I. unfold r_perimeter, r_half_perimeter. rewrite !r_delta_eq by exact I. cbn [obind r_get horizontal vertical lo hi].
  unfold rect_int, is_int, INT_MIN, INT_MAX in I. rewrite chk64_ok by lia. cbn [obind].
  split; [|reflexivity]. apply chk64_ok. lia.
Qed.
Lemma r_guess_eq r : rect_int r -> r_guess_orientation r = Ok (if (yh r - yl r) <=? (xh r - xl r) then Horizontal else Vertical).
Proof.
  intros I. unfold r_guess_orientation. rewrite !r_delta_eq by exact I. cbn [obind r_get horizontal vertical lo hi].
  rewrite Z.geb_leb. reflexivity.
Qed.
Lemma r_area_eq r : rect_int r -> rect_ok r -> (r_area r = Ok ((xh r - xl r) * (yh r - yl r)) <-> (xh r - xl r) * (yh r - yl r) < 2 ^ 63) /\
  (r_area r = Overflow <-> 2 ^ 63 <= (xh r - xl r) * (yh r - yl r)).
Proof.
  intros I [O1 O2]. unfold r_area. rewrite !r_delta_eq by exact I. cbn [obind r_get horizontal vertical lo hi].
  assert (0 <= (xh r - xl r) * (yh r - yl r)) by nia. unfold chk64.
  destruct ((- 2 ^ 63 <=? (xh r - xl r) * (yh r - yl r)) && ((xh r - xl r) * (yh r - yl r) <? 2 ^ 63)) eqn:E.
  - split; split; intros; try congruence; try lia.
  - split; split; intros; try congruence; try lia.
Qed.
Lemma r_area_small r : rect_int r -> rect_ok r -> (xh r - xl r <= INT_MAX \/ yh r - yl r <= INT_MAX) -> r_area r = Ok ((xh r - xl r) * (yh r - yl r)).
Proof. intros I O L. apply r_area_eq; [assumption|assumption|]. unfold rect_int, is_int, rect_ok, INT_MIN, INT_MAX in *. nia. Qed.
Lemma r_area_refuted : exists r, rect_int r /\ rect_ok r /\ r_area r = Overflow.
Proof. exists (mk_rect INT_MIN INT_MAX INT_MIN INT_MAX). split; [vm_compute; repeat split; discriminate|]. split; [vm_compute; repeat split; discriminate|]. reflexivity. Qed.
Lemma r_center_spec r c : rect_ok r -> r_center r = Ok c -> in_rectq true r (qpt c).
Proof.
  intros O H. rewrite rect_ok_ivls in O. destruct O as [O1 O2]. unfold r_center in H. apply obind_inv in H as [x [H1 H]]. apply obind_inv in H as [y [H2 H]]. injection H as <-.
  apply center_least in H1 as [H1 _]; [|exact O1]. apply center_least in H2 as [H2 _]; [|exact O2]. split; assumption.
Qed.
Lemma r_center_defined r : (exists c, r_center r = Ok c) <-> is_int (xl r + xh r) /\ is_int (yl r + yh r).
Proof.
  unfold r_center. split.
  - intros [c H]. apply obind_inv in H as [x [H1 H]]. apply obind_inv in H as [y [H2 H]]. split; [apply (proj1 (center_defined (horizontal r))); eexists; exact H1|apply (proj1 (center_defined (vertical r))); eexists; exact H2].
  - intros [A B]. destruct (proj2 (center_defined (horizontal r)) A) as [x Hx]. destruct (proj2 (center_defined (vertical r)) B) as [y Hy]. rewrite Hx. cbn [obind]. rewrite Hy. eexists; reflexivity.
Qed.
Lemma r_get_half_spec r o high h : rect_ok r -> r_get_half r o high = Ok h ->
  exists c, ivl_center (r_get r o) = Ok c /\ lo (r_get r o) <= c <= hi (r_get r o) /\
    h = r_set r o (if high then mk_ivl c (hi (r_get r o)) else mk_ivl (lo (r_get r o)) c).
Proof.
  intros O H. rewrite rect_ok_ivls in O. destruct O as [O1 O2]. unfold r_get_half in H. apply obind_inv in H as [i [H1 H]].
  assert (E : h = r_set r o i) by congruence. apply get_half_spec in H1 as [_ [c [H2 [H3 H4]]]]; [|destruct o; assumption].
  exists c. subst. auto.
Qed.

(* ---------- distances of rectangles ---------- *)
Lemma r_dist_o_eq r s o : rect_ok r -> rect_ok s -> rect_int r -> rect_int s ->
  r_dist_o r s o = Ok (Z.max 0 (Z.max (lo (r_get r o) - hi (r_get s o)) (lo (r_get s o) - hi (r_get r o)))).
Proof.
  intros A B C D. rewrite rect_ok_ivls in A, B. apply rect_int_ivls in C as [C1 C2]. apply rect_int_ivls in D as [D1 D2]. destruct A as [A1 A2], B as [B1 B2].
  unfold r_dist_o. destruct o; cbn [r_get]; apply dist_eq; assumption.
Qed.
Lemma r_dist_pt_o_eq r p o : rect_ok r -> rect_int r -> pt_int p ->
  r_dist_pt_o r p o = r_dist_o r (mk_rect (px p) (px p) (py p) (py p)) o.
Proof.
  intros A C D. rewrite r_dist_o_eq; [|assumption|unfold rect_ok; cbn [xl xh yl yh]; lia|assumption|destruct D; unfold rect_int; cbn [xl xh yl yh]; auto].
  rewrite rect_ok_ivls in A. apply rect_int_ivls in C as [C1 C2]. destruct A as [A1 A2], D as [D1 D2].
  unfold r_dist_pt_o. destruct o; cbn [r_get pt_get horizontal vertical lo hi]; rewrite dist_v_eq by assumption; reflexivity.
Qed.
(* nearest points on both axes *)
Lemma nearest_axis i j : ivl_ok i -> ivl_ok j -> exists p q, in_ivl true i p /\ in_ivl true j q /\
  (Qabs (p - q) == inject_Z (Z.max 0 (Z.max (lo i - hi j) (lo j - hi i))))%Q /\
  forall p' q', in_ivl true i p' -> in_ivl true j q' -> (inject_Z (Z.max 0 (Z.max (lo i - hi j) (lo j - hi i))) <= Qabs (p' - q'))%Q.
Proof. intros A B. destruct (least_dist_ivl i j A B) as [L [p [q [P [Q R]]]]]. exists p, q. auto. Qed.
Lemma Qabs_sq x : (Qabs x * Qabs x == x * x)%Q.
Proof. apply Qabs_case; intros; ring. Qed.
Lemma r_manhattan_spec r s : rect_ok r -> rect_ok s -> rect_int r -> rect_int s ->
  exists d, r_manhattan r s = Ok d /\ least_of l1_dist (in_rectq true r) (in_rectq true s) (inject_Z d).
Proof.
  intros A B C D. unfold r_manhattan. rewrite !r_dist_o_eq by assumption. cbn [obind r_get].
  set (a := Z.max 0 (Z.max (lo (horizontal r) - hi (horizontal s)) (lo (horizontal s) - hi (horizontal r)))).
  set (b := Z.max 0 (Z.max (lo (vertical r) - hi (vertical s)) (lo (vertical s) - hi (vertical r)))).
  exists (a + b). split.
  { apply chk64_ok. unfold rect_int, is_int, rect_ok, INT_MIN, INT_MAX in *. unfold a, b; cbn [horizontal vertical lo hi]. lia. }
  rewrite rect_ok_ivls in A, B. destruct A as [A1 A2], B as [B1 B2].
  destruct (nearest_axis _ _ A1 B1) as [p1 [q1 [P1 [Q1 [E1 L1]]]]]. destruct (nearest_axis _ _ A2 B2) as [p2 [q2 [P2 [Q2 [E2 L2]]]]].
  fold a in E1, L1. fold b in E2, L2. unfold least_of, l1_dist. rewrite inject_Z_plus. split.
  - intros p q [P P'] [Q Q']. specialize (L1 _ _ P Q). specialize (L2 _ _ P' Q'). lra.
  - exists (p1, p2), (q1, q2). cbn [fst snd]. split; [split; assumption|]. split; [split; assumption|]. rewrite E1, E2. reflexivity.
Qed.
Lemma sum_sq_eq a b : 0 <= a -> 0 <= b -> a * a + b * b < 2 ^ 63 -> sum_sq a b = Ok (a * a + b * b).
Proof. intros A B L. unfold sum_sq. rewrite chk64_ok by nia. cbn [obind]. rewrite chk64_ok by nia. cbn [obind]. apply chk64_ok. nia. Qed.
Lemma sum_sq_inv a b d : sum_sq a b = Ok d -> d = a * a + b * b /\ a * a + b * b < 2 ^ 63.
Proof.
  unfold sum_sq. intros H. apply obind_inv in H as [x [H1 H]]. apply obind_inv in H as [y [H2 H]].
  apply chk64_inv in H1 as [-> _]. apply chk64_inv in H2 as [-> _]. apply chk64_inv in H as [-> H]. split; [reflexivity|lia].
Qed.
Lemma r_sq_dist_least r s d : rect_ok r -> rect_ok s -> rect_int r -> rect_int s -> r_sq_dist r s = Ok d ->
  least_of sq_dist (in_rectq true r) (in_rectq true s) (inject_Z d).
Proof.
  intros A B C D H. unfold r_sq_dist in H. rewrite !r_dist_o_eq in H by assumption. cbn [obind r_get] in H.
  set (a := Z.max 0 (Z.max (lo (horizontal r) - hi (horizontal s)) (lo (horizontal s) - hi (horizontal r)))) in H.
  set (b := Z.max 0 (Z.max (lo (vertical r) - hi (vertical s)) (lo (vertical s) - hi (vertical r)))) in H.
  apply sum_sq_inv in H as [-> _].
  rewrite rect_ok_ivls in A, B. destruct A as [A1 A2], B as [B1 B2].
  destruct (nearest_axis _ _ A1 B1) as [p1 [q1 [P1 [Q1 [E1 L1]]]]]. destruct (nearest_axis _ _ A2 B2) as [p2 [q2 [P2 [Q2 [E2 L2]]]]].
  fold a in E1, L1. fold b in E2, L2. unfold least_of, sq_dist. rewrite inject_Z_plus, !inject_Z_mult.
  assert (NA : (0 <= inject_Z a)%Q) by (change (inject_Z 0 <= inject_Z a)%Q; rewrite Zle_Q; unfold a; lia).
  assert (NB : (0 <= inject_Z b)%Q) by (change (inject_Z 0 <= inject_Z b)%Q; rewrite Zle_Q; unfold b; lia).
  split.
  - intros p q [P P'] [Q Q']. specialize (L1 _ _ P Q). specialize (L2 _ _ P' Q'). rewrite <- (Qabs_sq (fst p - fst q)), <- (Qabs_sq (snd p - snd q)). nra.
  - exists (p1, p2), (q1, q2). cbn [fst snd]. split; [split; assumption|]. split; [split; assumption|].
    rewrite <- (Qabs_sq (p1 - q1)), <- (Qabs_sq (p2 - q2)), E1, E2. reflexivity.
Qed.
(* defined if no distance on an axis exceeds INT_MAX *)
Lemma r_sq_dist_defined r s : rect_ok r -> rect_ok s -> rect_int r -> rect_int s ->
  xl r - xh s <= INT_MAX -> xl s - xh r <= INT_MAX -> yl r - yh s <= INT_MAX -> yl s - yh r <= INT_MAX ->
  exists d, r_sq_dist r s = Ok d.
Proof.
  intros A B C D H1 H2 H3 H4. unfold r_sq_dist. rewrite !r_dist_o_eq by assumption. cbn [obind r_get horizontal vertical lo hi].
  eexists. apply sum_sq_eq; unfold INT_MAX in *; [lia|lia|].
  assert (0 <= Z.max 0 (Z.max (xl r - xh s) (xl s - xh r)) <= 2 ^ 31 - 1) by lia. assert (0 <= Z.max 0 (Z.max (yl r - yh s) (yl s - yh r)) <= 2 ^ 31 - 1) by lia. nia.
Qed.
Lemma r_sq_dist_refuted : exists r s, rect_ok r /\ rect_ok s /\ rect_int r /\ rect_int s /\ r_sq_dist r s = Overflow.
Proof.
  exists (mk_rect INT_MIN INT_MIN INT_MIN INT_MIN), (mk_rect INT_MAX INT_MAX INT_MAX INT_MAX).
  repeat split; try (vm_compute; repeat split; discriminate).
Qed.
Lemma r_sq_dist_pt_as r p : rect_ok r -> rect_int r -> pt_int p -> r_sq_dist_pt r p = r_sq_dist r (mk_rect (px p) (px p) (py p) (py p)).
Proof. intros. unfold r_sq_dist_pt, r_sq_dist. rewrite !r_dist_pt_o_eq by assumption. reflexivity. Qed.
Lemma r_manhattan_pt_as r p : rect_ok r -> rect_int r -> pt_int p -> r_manhattan_pt r p = r_manhattan r (mk_rect (px p) (px p) (py p) (py p)).
Proof. intros. unfold r_manhattan_pt, r_manhattan. rewrite !r_dist_pt_o_eq by assumption. reflexivity. Qed.
Lemma in_point_rect p q : in_rectq true (mk_rect (px p) (px p) (py p) (py p)) q <-> same_pt q (qpt p).
Proof. unfold in_rectq, in_ivl, same_pt, qpt, horizontal, vertical; cbn [lo hi xl xh yl yh fst snd]. split; intros; lra. Qed.
Lemma least_of_point f A p d : least_of f A (in_rectq true (mk_rect (px p) (px p) (py p) (py p))) d -> least_of f A (fun q => same_pt q (qpt p)) d.
Proof.
  intros [L [a [b [P [Q R]]]]]. split.
  - intros x y X Y. apply L; [exact X|apply in_point_rect; exact Y].
  - exists a, b. split; [exact P|]. split; [apply in_point_rect; exact Q|exact R].
Qed.
Lemma point_rect_ok p : pt_int p -> rect_ok (mk_rect (px p) (px p) (py p) (py p)) /\ rect_int (mk_rect (px p) (px p) (py p) (py p)).
Proof. intros [I J]. unfold rect_ok, rect_int; cbn [xl xh yl yh]. split; [lia|auto]. Qed.
Lemma r_sq_dist_pt_least r p d : rect_ok r -> rect_int r -> pt_int p -> r_sq_dist_pt r p = Ok d ->
  least_of sq_dist (in_rectq true r) (fun q => same_pt q (qpt p)) (inject_Z d).
Proof.
  intros A B C H. rewrite r_sq_dist_pt_as in H by assumption. apply least_of_point. destruct (point_rect_ok p C). apply r_sq_dist_least; assumption.
Qed.
Lemma r_manhattan_pt_spec r p : rect_ok r -> rect_int r -> pt_int p ->
  exists d, r_manhattan_pt r p = Ok d /\ least_of l1_dist (in_rectq true r) (fun q => same_pt q (qpt p)) (inject_Z d).
Proof.
  intros A B C. destruct (point_rect_ok p C) as [PO PI]. destruct (r_manhattan_spec r (mk_rect (px p) (px p) (py p) (py p))) as [d [H K]]; try assumption.
  exists d. rewrite r_manhattan_pt_as by assumption. split; [exact H|apply least_of_point; exact K].
Qed.
(* euclidean_distance of two rectangles takes the root of the squared distance
   cast to int: at distance 2^16 this is the root of 0, a bit less gives a
   negative radicand *)
Lemma r_radicand_refuted : exists r s d, rect_ok r /\ rect_ok s /\ rect_int r /\ rect_int s /\
  r_sq_dist r s = Ok d /\ 0 < d /\ r_dist_radicand r s = Ok 0.
Proof. exists (mk_rect 0 1 0 1), (mk_rect 65537 65538 0 1), (65536 * 65536). repeat split; try (vm_compute; repeat split; discriminate). Qed.
Lemma r_radicand_negative : exists r s z, rect_ok r /\ rect_ok s /\ rect_int r /\ rect_int s /\ r_dist_radicand r s = Ok z /\ z < 0.
Proof. exists (mk_rect 0 1 0 1), (mk_rect 50001 50002 0 1). eexists. repeat split; try (vm_compute; repeat split; discriminate). Qed.
Lemma r_radicand_small r s d : r_sq_dist r s = Ok d -> 0 <= d <= INT_MAX -> r_dist_radicand r s = Ok d.
Proof. intros H L. unfold r_dist_radicand. rewrite H. cbn [obind]. rewrite wrap32_id; [reflexivity|]. unfold is_int, INT_MIN, INT_MAX in *. lia. Qed.

(* ---------- the order of rectangles ---------- *)
Lemma r_less_irrefl o r : r_less o r r = false.
Proof. unfold r_less. destruct o; cbn [r_get perp horizontal vertical lo hi]; rewrite ?Z.gtb_ltb, ?Z.ltb_irrefl, ?Z.eqb_refl; reflexivity. Qed.
Definition lex4 (a b : list Z) : Prop :=
  match a, b with
  | [a1; a2; a3; a4], [b1; b2; b3; b4] => a1 < b1 \/ (a1 = b1 /\ (a2 < b2 \/ (a2 = b2 /\ (a3 < b3 \/ (a3 = b3 /\ a4 < b4)))))
  | _, _ => False
  end.
Definition rect_key (o : orient) (r : rect) : list Z := [lo (r_get r o); lo (r_get r (perp o)); hi (r_get r o); hi (r_get r (perp o))].
Lemma r_less_key o r s : r_less o r s = true <-> lex4 (rect_key o r) (rect_key o s).
Proof.
  unfold r_less, lex4, rect_key.
  destruct (lo (r_get r o) >? lo (r_get s o)) eqn:E1; [lia|]. destruct (lo (r_get r o) =? lo (r_get s o)) eqn:E2; [|lia].
  destruct (lo (r_get r (perp o)) >? lo (r_get s (perp o))) eqn:E3; [lia|]. destruct (lo (r_get r (perp o)) =? lo (r_get s (perp o))) eqn:E4; [|lia].
  destruct (hi (r_get r o) >? hi (r_get s o)) eqn:E5; [lia|]. destruct (hi (r_get r o) =? hi (r_get s o)) eqn:E6; lia.
Qed.
Lemma r_less_trans o r s t : r_less o r s = true -> r_less o s t = true -> r_less o r t = true.
Proof. rewrite !r_less_key. unfold lex4, rect_key. lia. Qed.
Lemma r_less_total o r s : r_less o r s = true \/ r = s \/ r_less o s r = true.
Proof.
  rewrite !r_less_key. unfold lex4, rect_key. destruct r as [a b c d], s as [a' b' c' d'].
  assert (D : {a = a' /\ b = b' /\ c = c' /\ d = d'} + {~ (a = a' /\ b = b' /\ c = c' /\ d = d')}).
  { destruct (Z.eq_dec a a'); [|right; tauto]. destruct (Z.eq_dec b b'); [|right; tauto]. destruct (Z.eq_dec c c'); [|right; tauto]. destruct (Z.eq_dec d d'); [left|right]; tauto. }
  destruct D as [[-> [-> [-> ->]]]|D]; [right; left; reflexivity|].
  destruct o; cbn [r_get perp horizontal vertical lo hi xl xh yl yh]; lia.
Qed.
