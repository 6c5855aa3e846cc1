(* Lemmas about distances to segments. *)
From Verif Require Import Base Scan90Spec Set90Spec Set90Model GeoSpec IvlModel IvlProofs RectModel RectProofs RectArith RectDist SegModel SegProofs SegMeet.

(* the square of the distance of a point from a point of the segment *)
Lemma sq_dist_at s t p : (sq_dist (seg_at s t) (qpt p) ==
  let A := inject_Z (px p - px (s_low s)) in let B := inject_Z (py p - py (s_low s)) in
  let C := inject_Z (px (s_high s) - px (s_low s)) in let D := inject_Z (py (s_high s) - py (s_low s)) in
  (A - t * C) * (A - t * C) + (B - t * D) * (B - t * D))%Q.
Proof.
  cbv zeta. unfold sq_dist, seg_at, qpt; cbn [fst snd]. rewrite (injZ_sub (px p)), (injZ_sub (py p)). ring.
Qed.
Lemma sq_dist_wd p q p' q' : same_pt p p' -> same_pt q q' -> (sq_dist p q == sq_dist p' q')%Q.
Proof. intros [A B] [C D]. unfold sq_dist. rewrite A, B, C, D. reflexivity. Qed.
Lemma sq_dist_sym p q : (sq_dist p q == sq_dist q p)%Q.
Proof. unfold sq_dist. ring. Qed.
Lemma sq_dist_nonneg p q : (0 <= sq_dist p q)%Q.
Proof. unfold sq_dist. set (a := (fst p - fst q)%Q). set (b := (snd p - snd q)%Q). assert (0 <= a * a)%Q by nra. assert (0 <= b * b)%Q by nra. lra. Qed.
Lemma sq_dist_0 p q : (sq_dist p q == 0)%Q <-> same_pt p q.
Proof.
  unfold sq_dist, same_pt. split.
  - intros Hsum. assert (X : forall a b, (a * a + b * b == 0)%Q -> (a == 0)%Q).
    { intros a b E. assert (0 <= b * b)%Q by nra. assert (0 <= a * a)%Q by nra. assert (Z0 : (a * a == 0)%Q) by lra. apply Qmult_integral in Z0. tauto. }
    pose proof (X _ _ Hsum). rewrite Qplus_comm in Hsum. pose proof (X _ _ Hsum). lra.
  - intros [A B]. rewrite A, B. ring.
Qed.
Definition is_pt (p : point) (q : Q * Q) : Prop := same_pt q (qpt p).
Lemma point_least s p f u d : (0 <= u <= 1)%Q -> (f == sq_dist (seg_at s u) (qpt p))%Q ->
  (forall t, (0 <= t <= 1)%Q -> (f <= sq_dist (seg_at s t) (qpt p))%Q) -> (f == d)%Q -> least_of sq_dist (on_seg s) (is_pt p) d.
Proof.
  intros U E L F. split.
  - intros a b [t [T A]] B. rewrite <- F, <- (sq_dist_wd _ _ _ _ A (same_sym _ _ B)). apply L. exact T.
  - exists (seg_at s u), (qpt p). split; [exists u; split; [exact U|split; reflexivity]|]. split; [split; reflexivity|]. rewrite <- F, E. reflexivity.
Qed.
Lemma len_pos s : nondeg s -> 0 < (px (s_high s) - px (s_low s)) * (px (s_high s) - px (s_low s)) + (py (s_high s) - py (s_low s)) * (py (s_high s) - py (s_low s)).
Proof. intros N. set (a := px _ - _). set (b := py _ - _). assert (0 <= a * a) by nia. assert (0 <= b * b) by nia. destruct (nondeg_d s N) as [Hn|Hn]; [fold a in Hn|fold b in Hn]; nia. Qed.
Lemma dist_sq_q p q : (inject_Z ((px p - px q) * (px p - px q) + (py p - py q) * (py p - py q)) == sq_dist (qpt p) (qpt q))%Q.
Proof. unfold sq_dist, qpt; cbn [fst snd]. rewrite inject_Z_plus, !inject_Z_mult, (injZ_sub (px p)), (injZ_sub (py p)). reflexivity. Qed.
Lemma dist_pt_least s p d : nondeg s -> seg_dist_sq_pt s p = Ok d -> least_of sq_dist (on_seg s) (is_pt p) d.
Proof.
  intros N H. pose proof (len_pos s N) as LP. unfold seg_dist_sq_pt in H. cbv zeta in H.
  set (A := px p - px (s_low s)) in *. set (B := py p - py (s_low s)) in *.
  set (C := px (s_high s) - px (s_low s)) in *. set (D := py (s_high s) - py (s_low s)) in *.
  assert (F : forall t, (sq_dist (seg_at s t) (qpt p) == inject_Z (A * A + B * B) - (2 # 1) * t * inject_Z (A * C + B * D) + t * t * inject_Z (C * C + D * D))%Q).
  { intros t. rewrite sq_dist_at. cbv zeta. fold A B C D. rewrite !inject_Z_plus, !inject_Z_mult. ring. }
  destruct (A * C + B * D >? C * C + D * D) eqn:E1.
  - apply obind_inv in H as [e [H1 H2]]. apply pt_dist_sq_inv in H1 as [-> _].
    apply (point_least s p (inject_Z ((px (s_high s) - px p) * (px (s_high s) - px p) + (py (s_high s) - py p) * (py (s_high s) - py p))) 1).
    + lra.
    + rewrite dist_sq_q. apply sq_dist_wd; [apply same_sym, seg_at_1|split; reflexivity].
    + intros t T. rewrite dist_sq_q, <- (sq_dist_wd _ _ _ _ (seg_at_1 s) (conj (Qeq_refl _) (Qeq_refl _) : same_pt (qpt p) (qpt p))), !F.
      assert (G : C * C + D * D < A * C + B * D) by lia. apply Zlt_Q in G. set (P := inject_Z (A * C + B * D)) in *. set (L := inject_Z (C * C + D * D)) in *.
      apply Zlt_Q in LP. fold L in LP. change (inject_Z 0) with 0%Q in LP. clearbody P L. destruct T as [T1 T2].
      assert (0 <= (1 - t) * ((2 # 1) * P - L * (1 + t)))%Q by (apply Qmult_le_0_compat; nra). lra.
    + assert (E : d = inject_Z ((px (s_high s) - px p) * (px (s_high s) - px p) + (py (s_high s) - py p) * (py (s_high s) - py p))) by congruence. rewrite E. reflexivity.
  - destruct (A * C + B * D <? 0) eqn:E2.
    + apply obind_inv in H as [e [H1 H2]]. apply pt_dist_sq_inv in H1 as [-> _].
      apply (point_least s p (inject_Z ((px (s_low s) - px p) * (px (s_low s) - px p) + (py (s_low s) - py p) * (py (s_low s) - py p))) 0).
      * lra.
      * rewrite dist_sq_q. apply sq_dist_wd; [apply same_sym, seg_at_0|split; reflexivity].
      * intros t T. rewrite dist_sq_q, <- (sq_dist_wd _ _ _ _ (seg_at_0 s) (conj (Qeq_refl _) (Qeq_refl _) : same_pt (qpt p) (qpt p))), !F.
        assert (G : A * C + B * D < 0) by lia. apply Zlt_Q in G. set (P := inject_Z (A * C + B * D)) in *. set (L := inject_Z (C * C + D * D)) in *.
        apply Zlt_Q in LP. fold L in LP. change (inject_Z 0) with 0%Q in *. clearbody P L. destruct T as [T1 T2].
        assert (0 <= t * (- P))%Q by nra. assert (0 <= t * t * L)%Q by nra. lra.
      * assert (E : d = inject_Z ((px (s_low s) - px p) * (px (s_low s) - px p) + (py (s_low s) - py p) * (py (s_low s) - py p))) by congruence. rewrite E. reflexivity.
    + destruct (C * C + D * D =? 0) eqn:E3; [lia|].
      assert (E : d = (inject_Z (A * D - C * B) * inject_Z (A * D - C * B) / inject_Z (C * C + D * D))%Q) by congruence. clear H. subst d.
      assert (LQ : (0 < inject_Z (C * C + D * D))%Q) by (change 0%Q with (inject_Z 0); apply Zlt_Q; exact LP).
      assert (NZ : ~ (inject_Z (C * C + D * D) == 0)%Q) by lra.
      assert (I : (inject_Z (A * D - C * B) * inject_Z (A * D - C * B) == inject_Z (C * C + D * D) * inject_Z (A * A + B * B) - inject_Z (A * C + B * D) * inject_Z (A * C + B * D))%Q).
      { rewrite <- !inject_Z_mult, <- injZ_sub. apply injZ_eq. ring. }
      set (L := inject_Z (C * C + D * D)) in *. set (P := inject_Z (A * C + B * D)) in *. set (G := inject_Z (A * A + B * B)) in *.
      assert (P0 : (0 <= P)%Q) by (unfold P; change 0%Q with (inject_Z 0); apply Zle_Q; lia). assert (P1 : (P <= L)%Q) by (unfold P, L; apply Zle_Q; lia).
      apply (point_least s p ((L * G - P * P) / L)%Q (P / L)%Q).
      * split; [apply Qle_shift_div_l; lra|apply Qle_shift_div_r; lra].
      * rewrite F. field. exact NZ.
      * intros t T. rewrite F. apply Qle_shift_div_r; [exact LQ|]. assert (SQ : forall z, (0 <= z * z)%Q) by (intros z; nra). pose proof (SQ (P - t * L)%Q). lra.
      * rewrite I. reflexivity.
Qed.
(* no overflow *)
Definition half_range (p : point) : Prop := - 2 ^ 30 <= px p < 2 ^ 30 /\ - 2 ^ 30 <= py p < 2 ^ 30.
Lemma half_dist p q : half_range p -> half_range q -> exists d, pt_dist_sq p q = Ok d.
Proof.
  intros [A1 A2] [B1 B2]. eexists. apply pt_dist_sq_inv. split; [reflexivity|]. unfold near, is_int, INT_MIN, INT_MAX.
  assert (X : forall a b, - 2 ^ 30 <= a < 2 ^ 30 -> - 2 ^ 30 <= b < 2 ^ 30 -> (a - b) * (a - b) < 2 ^ 62) by (intros a b [? ?] [? ?]; nia).
  pose proof (X _ _ A1 B1). pose proof (X _ _ A2 B2). split; lia.
Qed.
Lemma dist_pt_ok s p : half_range (s_low s) -> half_range (s_high s) -> half_range p -> exists d, seg_dist_sq_pt s p = Ok d.
Proof.
  intros A B C. unfold seg_dist_sq_pt. cbv zeta. destruct (half_dist _ _ B C) as [d1 E1]. destruct (half_dist _ _ A C) as [d2 E2]. rewrite E1, E2. cbn [obind].
  destruct (_ >? _); [eauto|]. destruct (_ <? _); [eauto|]. destruct (_ =? _); eauto.
Qed.
Lemma least_zero s p d : least_of sq_dist (on_seg s) (is_pt p) d -> (d == 0)%Q <-> on_seg s (qpt p).
Proof.
  intros [L [a [b [A [B E]]]]]. split.
  - intros Z0. rewrite Z0 in E. apply sq_dist_0 in E. apply (on_seg_wd s a); [apply (same_trans _ _ _ E B)|exact A].
  - intros O. assert (d <= 0)%Q. { rewrite <- (proj2 (sq_dist_0 (qpt p) (qpt p)) (conj (Qeq_refl _) (Qeq_refl _))). apply L; [exact O|split; reflexivity]. }
    pose proof (sq_dist_nonneg a b). lra.
Qed.

(* ---------- two segments ---------- *)
(* leaving the unit interval along a direction *)
Lemma exit1 t a : (0 <= t <= 1)%Q -> ~ (a == 0)%Q -> exists l, (0 <= l)%Q /\ (t + l * a == 0 \/ t + l * a == 1)%Q /\
  (forall m, 0 <= m <= l -> 0 <= t + m * a <= 1)%Q /\ (~ (0 <= t + a <= 1)%Q -> (l <= 1)%Q).
Proof.
  intros T N. destruct (Qlt_le_dec 0 a) as [P|P].
  - exists ((1 - t) / a)%Q. assert (E : ((1 - t) / a * a == 1 - t)%Q) by (field; exact N).
    assert (L0 : (0 <= (1 - t) / a)%Q) by (apply Qle_shift_div_l; lra). split; [exact L0|]. split; [right; lra|]. split.
    + intros m M. assert (m * a <= (1 - t) / a * a)%Q by (apply Qmult_le_compat_r; lra). assert (0 <= m * a)%Q by nra. lra.
    + intros H. apply Qle_shift_div_r; [exact P|]. destruct (Qlt_le_dec 1 (t + a)); [lra|]. exfalso. apply H. lra.
  - assert (P' : (0 < - a)%Q) by (destruct (Qlt_le_dec 0 (- a)); [assumption|exfalso; apply N; lra]).
    exists (t / - a)%Q. assert (E : (t / - a * a == - t)%Q) by (field; exact N).
    assert (L0 : (0 <= t / - a)%Q) by (apply Qle_shift_div_l; lra). split; [exact L0|]. split; [left; lra|]. split.
    + intros m M. assert (m * - a <= t / - a * - a)%Q by (apply Qmult_le_compat_r; lra). assert (0 <= m * - a)%Q by nra. lra.
    + intros H. apply Qle_shift_div_r; [exact P'|]. destruct (Qlt_le_dec (t + a) 0); [lra|]. exfalso. apply H. lra.
Qed.
Definition edge (t u : Q) : Prop := (t == 0 \/ t == 1 \/ u == 0 \/ u == 1)%Q.
Lemma exit2 t u a b : (0 <= t <= 1)%Q -> (0 <= u <= 1)%Q -> ~ (a == 0 /\ b == 0)%Q ->
  exists l, (0 <= l)%Q /\ (0 <= t + l * a <= 1)%Q /\ (0 <= u + l * b <= 1)%Q /\ edge (t + l * a) (u + l * b) /\
  (~ ((0 <= t + a <= 1)%Q /\ (0 <= u + b <= 1)%Q) -> (l <= 1)%Q).
Proof.
  intros T U N. unfold edge. destruct (Qeq_dec a 0) as [A|A]; destruct (Qeq_dec b 0) as [B|B].
  - exfalso. tauto.
  - destruct (exit1 u b U B) as [l [L [E [I O]]]]. exists l. split; [exact L|]. split; [rewrite A; lra|]. split; [apply I; lra|]. split; [tauto|].
    intros H. apply O. intros F. apply H. split; [lra|exact F].
  - destruct (exit1 t a T A) as [l [L [E [I O]]]]. exists l. split; [exact L|]. split; [apply I; lra|]. split; [rewrite B; lra|]. split; [tauto|].
    intros H. apply O. intros F. apply H. split; [exact F|lra].
  - destruct (exit1 t a T A) as [l [L [E [I O]]]]. destruct (exit1 u b U B) as [l' [L' [E' [I' O']]]].
    assert (D : ~ ((0 <= t + a <= 1)%Q /\ (0 <= u + b <= 1)%Q) -> (l <= 1)%Q \/ (l' <= 1)%Q).
    { intros H. destruct (Qlt_le_dec (t + a) 0); [left; apply O; lra|]. destruct (Qlt_le_dec 1 (t + a)); [left; apply O; lra|]. right. apply O'. intros F. apply H. lra. }
    destruct (Qlt_le_dec l l') as [M|M].
    + exists l. split; [exact L|]. split; [apply I; lra|]. split; [apply I'; lra|]. split; [tauto|]. intros H. destruct (D H); lra.
    + exists l'. split; [exact L'|]. split; [apply I; lra|]. split; [apply I'; lra|]. split; [tauto|]. intros H. destruct (D H); lra.
Qed.
(* the distance does not grow on the way to some point of the edge of the square *)
Lemma to_edge s1 s2 t u : nondeg s1 -> nondeg s2 -> (~ exists q, on_seg s1 q /\ on_seg s2 q) -> (0 <= t <= 1)%Q -> (0 <= u <= 1)%Q ->
  exists t' u', (0 <= t' <= 1)%Q /\ (0 <= u' <= 1)%Q /\ edge t' u' /\ (sq_dist (seg_at s1 t') (seg_at s2 u') <= sq_dist (seg_at s1 t) (seg_at s2 u))%Q.
Proof.
  intros N1 N2 D T U. destruct (Z.eq_dec (cross s1 s2) 0) as [K|K].
  - assert (R : exists c, (inject_Z (px (s_high s2) - px (s_low s2)) == c * inject_Z (px (s_high s1) - px (s_low s1)) /\
                           inject_Z (py (s_high s2) - py (s_low s2)) == c * inject_Z (py (s_high s1) - py (s_low s1)))%Q).
    { unfold cross in K. apply injZ_eq in K. rewrite injZ_sub, !inject_Z_mult in K. change (inject_Z 0) with 0%Q in K.
      destruct (nondeg_d s1 N1) as [H|H]; rewrite <- injZ_eq in H; change (inject_Z 0) with 0%Q in H.
      - exists (inject_Z (px (s_high s2) - px (s_low s2)) / inject_Z (px (s_high s1) - px (s_low s1)))%Q. split; [field; exact H|].
        apply (Qmult_inj_r _ _ _ H). field_simplify; [|exact H]. lra.
      - exists (inject_Z (py (s_high s2) - py (s_low s2)) / inject_Z (py (s_high s1) - py (s_low s1)))%Q. split; [|field; exact H].
        apply (Qmult_inj_r _ _ _ H). field_simplify; [|exact H]. lra. }
    destruct R as [c [R1 R2]]. destruct (exit2 t u c 1 T U) as [l [L [T' [U' [E _]]]]]; [intros [_ H]; lra|].
    exists (t + l * c)%Q, (u + l * 1)%Q. split; [exact T'|]. split; [exact U'|]. split; [exact E|].
    unfold sq_dist, seg_at; cbn [fst snd]. rewrite R1, R2. apply Qle_lteq. right. ring.
  - pose proof (crossing s1 s2 K) as [X1 X2]. cbv zeta in X1, X2.
    set (t0 := (inject_Z (side s2 (s_low s1)) / inject_Z (cross s1 s2))%Q) in *.
    set (u0 := (- inject_Z (side s1 (s_low s2)) / inject_Z (cross s1 s2))%Q) in *. clearbody t0 u0.
    assert (O : ~ ((0 <= t0 <= 1)%Q /\ (0 <= u0 <= 1)%Q)).
    { intros [A B]. apply D. exists (seg_at s1 t0). split; [exists t0; split; [exact A|split; reflexivity]|]. exists u0. split; [exact B|]. apply same_sym. split; assumption. }
    destruct (exit2 t u (t0 - t) (u0 - u) T U) as [l [L [T' [U' [E M]]]]].
    { intros [H1 H2]. apply O. lra. }
    assert (L1 : (l <= 1)%Q) by (apply M; intros [A B]; apply O; lra).
    exists (t + l * (t0 - t))%Q, (u + l * (u0 - u))%Q. split; [exact T'|]. split; [exact U'|]. split; [exact E|].
    assert (G : (sq_dist (seg_at s1 (t + l * (t0 - t))) (seg_at s2 (u + l * (u0 - u))) == (1 - l) * (1 - l) * sq_dist (seg_at s1 t) (seg_at s2 u))%Q).
    { unfold sq_dist, seg_at in *; cbn [fst snd] in *.
      set (c1 := inject_Z (px (s_high s1) - px (s_low s1))) in *. set (c2 := inject_Z (py (s_high s1) - py (s_low s1))) in *.
      set (c3 := inject_Z (px (s_high s2) - px (s_low s2))) in *. set (c4 := inject_Z (py (s_high s2) - py (s_low s2))) in *.
      set (a1 := inject_Z (px (s_low s1))) in *. set (a2 := inject_Z (py (s_low s1))) in *.
      assert (Y1 : (inject_Z (px (s_low s2)) == a1 + t0 * c1 - u0 * c3)%Q) by lra. assert (Y2 : (inject_Z (py (s_low s2)) == a2 + t0 * c2 - u0 * c4)%Q) by lra.
      rewrite Y1, Y2. ring. }
    rewrite G. pose proof (sq_dist_nonneg (seg_at s1 t) (seg_at s2 u)) as P. assert (0 <= (1 - l) * (1 - l) <= 1)%Q by nra. nra.
Qed.
Lemma least_dist_min s1 s2 r1 r2 r3 r4 d : nondeg s1 -> nondeg s2 -> (~ exists q, on_seg s1 q /\ on_seg s2 q) ->
  least_of sq_dist (on_seg s1) (is_pt (s_low s2)) r1 -> least_of sq_dist (on_seg s1) (is_pt (s_high s2)) r2 ->
  least_of sq_dist (on_seg s2) (is_pt (s_low s1)) r3 -> least_of sq_dist (on_seg s2) (is_pt (s_high s1)) r4 ->
  (d <= r1 /\ d <= r2 /\ d <= r3 /\ d <= r4)%Q -> (d == r1 \/ d == r2 \/ d == r3 \/ d == r4)%Q ->
  least_of sq_dist (on_seg s1) (on_seg s2) d.
Proof.
  intros N1 N2 D [L1 A1] [L2 A2] [L3 A3] [L4 A4] LE EQ. split.
  - intros p q [t [T P]] [u [U Q]]. rewrite <- (sq_dist_wd _ _ _ _ P Q).
    destruct (to_edge s1 s2 t u N1 N2 D T U) as [t' [u' [T' [U' [E S]]]]].
    assert (O1 : on_seg s1 (seg_at s1 t')) by (exists t'; split; [exact T'|split; reflexivity]). assert (O2 : on_seg s2 (seg_at s2 u')) by (exists u'; split; [exact U'|split; reflexivity]).
    assert (W : forall s x y, (x == y)%Q -> same_pt (seg_at s x) (seg_at s y)) by (intros s x y Exy; unfold same_pt, seg_at; cbn [fst snd]; split; rewrite Exy; reflexivity).
    assert (M : (d <= sq_dist (seg_at s1 t') (seg_at s2 u'))%Q).
    { destruct E as [E|[E|[E|E]]].
      - rewrite sq_dist_sym. apply Qle_trans with r3; [tauto|]. apply L3; [exact O2|]. apply (same_trans _ _ _ (W _ _ _ E)), seg_at_0.
      - rewrite sq_dist_sym. apply Qle_trans with r4; [tauto|]. apply L4; [exact O2|]. apply (same_trans _ _ _ (W _ _ _ E)), seg_at_1.
      - apply Qle_trans with r1; [tauto|]. apply L1; [exact O1|]. apply (same_trans _ _ _ (W _ _ _ E)), seg_at_0.
      - apply Qle_trans with r2; [tauto|]. apply L2; [exact O1|]. apply (same_trans _ _ _ (W _ _ _ E)), seg_at_1. }
    lra.
  - assert (PT : forall s p, on_seg s (qpt p) -> forall q, is_pt p q -> on_seg s q) by (intros s p O q B; apply (on_seg_wd s (qpt p)); [apply same_sym; exact B|exact O]).
    destruct EQ as [E|[E|[E|E]]].
    + destruct A1 as [p [q [P [Q R]]]]. exists p, q. split; [exact P|]. split; [apply (PT s2 (s_low s2)); [apply on_seg_low|exact Q]|]. rewrite R, E. reflexivity.
    + destruct A2 as [p [q [P [Q R]]]]. exists p, q. split; [exact P|]. split; [apply (PT s2 (s_high s2)); [apply on_seg_high|exact Q]|]. rewrite R, E. reflexivity.
    + destruct A3 as [p [q [P [Q R]]]]. exists q, p. split; [apply (PT s1 (s_low s1)); [apply on_seg_low|exact Q]|]. split; [exact P|]. rewrite sq_dist_sym, R, E. reflexivity.
    + destruct A4 as [p [q [P [Q R]]]]. exists q, p. split; [apply (PT s1 (s_high s1)); [apply on_seg_high|exact Q]|]. split; [exact P|]. rewrite sq_dist_sym, R, E. reflexivity.
Qed.
Lemma dist_seg_least s1 s2 d : seg_int s1 -> seg_int s2 -> nondeg s1 -> nondeg s2 -> seg_dist_sq s1 s2 = Ok d -> least_of sq_dist (on_seg s1) (on_seg s2) d.
Proof.
  intros S1 S2 N1 N2 H. unfold seg_dist_sq in H. destruct (intersects_eq s1 s2 true S1 S2) as [b [E F]]. rewrite E in H. cbn [obind] in H. destruct b.
  - assert (d = 0%Q) by congruence. subst d. destruct (proj1 F eq_refl) as [q [A [B _]]]. split; [intros p r _ _; apply sq_dist_nonneg|].
    exists q, q. split; [exact A|]. split; [exact B|]. apply sq_dist_0. split; reflexivity.
  - apply obind_inv in H as [r1 [R1 H]]. apply obind_inv in H as [r2 [R2 H]]. apply obind_inv in H as [r3 [R3 H]]. apply obind_inv in H as [r4 [R4 H]]. cbv zeta in H.
    apply dist_pt_least in R1, R2, R3, R4; try assumption.
    apply (least_dist_min s1 s2 r1 r2 r3 r4); try assumption.
    + intros [q [A B]]. assert (false = true) by (apply F; exists q; split; [exact A|]; split; [exact B|discriminate]). discriminate.
    + destruct (Qlt_le_dec r2 r1), (Qlt_le_dec r4 r3); destruct (Qlt_le_dec _ _) in H; assert (X := f_equal (fun o => match o with Ok x => x | _ => 0%Q end) H); cbn beta iota in X; subst d; lra.
    + destruct (Qlt_le_dec r2 r1), (Qlt_le_dec r4 r3); destruct (Qlt_le_dec _ _) in H; assert (X := f_equal (fun o => match o with Ok x => x | _ => 0%Q end) H); cbn beta iota in X; subst d; lra.
Qed.
Lemma dist_seg_ok s1 s2 : half_range (s_low s1) -> half_range (s_high s1) -> half_range (s_low s2) -> half_range (s_high s2) -> exists d, seg_dist_sq s1 s2 = Ok d.
Proof.
  intros A B C D. unfold seg_dist_sq.
  assert (HI : forall p, half_range p -> pt_int p) by (intros p [X Y]; unfold pt_int, is_int, INT_MIN, INT_MAX; lia).
  destruct (intersects_eq s1 s2 true) as [b [E _]]; [split; apply HI; assumption|split; apply HI; assumption|]. rewrite E. cbn [obind]. destruct b; [eauto|].
  destruct (dist_pt_ok s1 (s_low s2)) as [r1 R1]; try assumption. destruct (dist_pt_ok s1 (s_high s2)) as [r2 R2]; try assumption.
  destruct (dist_pt_ok s2 (s_low s1)) as [r3 R3]; try assumption. destruct (dist_pt_ok s2 (s_high s1)) as [r4 R4]; try assumption.
  rewrite R1, R2, R3, R4. cbn [obind]. eauto.
Qed.
