(* Lemmas about the intersection of two segments. *)
From Verif Require Import Base Scan90Spec Set90Spec Set90Model GeoSpec IvlModel IvlProofs RectModel RectProofs RectArith RectDist SegModel SegProofs.

Lemma sx_ok s : ivl_ok (sx s). Proof. unfold ivl_ok, sx; cbn [lo hi]. lia. Qed.
Lemma sy_ok s : ivl_ok (sy s). Proof. unfold ivl_ok, sy; cbn [lo hi]. lia. Qed.
Lemma boxes_meet s1 s2 : r_intersects (seg_box s1) (seg_box s2) true = true <->
  (exists w, in_ivl true (sx s1) w /\ in_ivl true (sx s2) w) /\ (exists w, in_ivl true (sy s1) w /\ in_ivl true (sy s2) w).
Proof. unfold r_intersects. rewrite !box_x, !box_y, andb_true_iff, !intersects_touch by (apply sx_ok || apply sy_ok). reflexivity. Qed.

(* sides of the end points *)
Lemma side_ends s1 s2 : side s1 (s_high s2) = side s1 (s_low s2) + cross s1 s2 /\ side s2 (s_high s1) = side s2 (s_low s1) - cross s1 s2.
Proof. unfold side, cross; cbn [s_low s_high]. split; ring. Qed.
Lemma qside_at s1 s2 u : (qside s1 (seg_at s2 u) == inject_Z (side s1 (s_low s2)) + u * inject_Z (cross s1 s2))%Q.
Proof. unfold qside, seg_at, side, cross; cbn [s_low s_high fst snd]. rewrite !injZ_sub, !inject_Z_mult, !injZ_sub.
  pose proof (injZ_sub (py (s_high s2)) (py (s_low s2))). pose proof (injZ_sub (px (s_high s1)) (px (s_low s1))).
  pose proof (injZ_sub (py (s_high s1)) (py (s_low s1))). pose proof (injZ_sub (px (s_high s2)) (px (s_low s2))).
  pose proof (injZ_sub (py (s_low s2)) (py (s_low s1))). pose proof (injZ_sub (px (s_low s2)) (px (s_low s1))).
  rewrite ?H, ?H0, ?H1, ?H2, ?H3, ?H4. ring. Qed.
Lemma qside_wd s p q : same_pt p q -> (qside s p == qside s q)%Q.
Proof. intros [E1 E2]. unfold qside. rewrite E1, E2. reflexivity. Qed.
Lemma meet_param s1 s2 q t u : same_pt (seg_at s1 t) q -> same_pt (seg_at s2 u) q ->
  (inject_Z (side s1 (s_low s2)) + u * inject_Z (cross s1 s2) == 0 /\ inject_Z (side s2 (s_low s1)) - t * inject_Z (cross s1 s2) == 0)%Q.
Proof.
  intros A B. split.
  - rewrite <- qside_at, (qside_wd _ _ _ B), <- (qside_wd _ _ _ A). unfold qside, seg_at; cbn [fst snd]. ring.
  - assert (E : (inject_Z (cross s2 s1) == - inject_Z (cross s1 s2))%Q) by (rewrite <- inject_Z_opp; apply injZ_eq; unfold cross; ring).
    assert (F : (qside s2 (seg_at s1 t) == 0)%Q) by (rewrite (qside_wd _ _ _ A), <- (qside_wd _ _ _ B); unfold qside, seg_at; cbn [fst snd]; ring).
    rewrite qside_at, E in F. lra.
Qed.
Lemma opp_sides a k u : (0 <= u <= 1)%Q -> (inject_Z a + u * inject_Z k == 0)%Q -> Z.sgn a * Z.sgn (a + k) <= 0.
Proof.
  intros U H. rewrite <- Z.sgn_mul. destruct (Z.leb_spec (a * (a + k)) 0) as [L|L]; [lia|]. exfalso.
  apply Zlt_Q in L. rewrite inject_Z_mult, inject_Z_plus in L. change (inject_Z 0) with 0%Q in L.
  set (A := inject_Z a) in *. set (K := inject_Z k) in *. clearbody A K.
  (* A (A+K) > 0, A = - u K *)
  assert (A == - u * K)%Q by lra. rewrite H0 in L. assert (- u * (1 - u) * (K * K) > 0)%Q by lra.
  assert (0 <= K * K)%Q by nra. assert (0 <= u * (1 - u))%Q by nra. nra.
Qed.

(* ---------- the crossing of two lines ---------- *)
Lemma crossing s1 s2 : cross s1 s2 <> 0 ->
  let t := (inject_Z (side s2 (s_low s1)) / inject_Z (cross s1 s2))%Q in
  let u := (- inject_Z (side s1 (s_low s2)) / inject_Z (cross s1 s2))%Q in
  same_pt (seg_at s1 t) (seg_at s2 u).
Proof.
  intros K. cbv zeta. assert (NZ : ~ (inject_Z (cross s1 s2) == 0)%Q) by (change 0%Q with (inject_Z 0); rewrite injZ_eq; exact K).
  assert (E1 : (px (s_low s1) - px (s_low s2)) * cross s1 s2 + side s2 (s_low s1) * (px (s_high s1) - px (s_low s1)) + side s1 (s_low s2) * (px (s_high s2) - px (s_low s2)) = 0)
    by (unfold side, cross; cbn [s_low s_high]; ring).
  assert (E2 : (py (s_low s1) - py (s_low s2)) * cross s1 s2 + side s2 (s_low s1) * (py (s_high s1) - py (s_low s1)) + side s1 (s_low s2) * (py (s_high s2) - py (s_low s2)) = 0)
    by (unfold side, cross; cbn [s_low s_high]; ring).
  apply injZ_eq in E1, E2. rewrite !inject_Z_plus, !inject_Z_mult in E1, E2. rewrite (injZ_sub (px (s_low s1)) (px (s_low s2))) in E1. rewrite (injZ_sub (py (s_low s1)) (py (s_low s2))) in E2.
  change (inject_Z 0) with 0%Q in *. unfold same_pt, seg_at; cbn [fst snd].
  set (kk := inject_Z (cross s1 s2)) in *. split.
  - apply (Qmult_inj_r _ _ kk NZ). field_simplify; [|exact NZ|exact NZ]. lra.
  - apply (Qmult_inj_r _ _ kk NZ). field_simplify; [|exact NZ|exact NZ]. lra.
Qed.
Lemma ratio_range a k : k <> 0 -> Z.sgn a * Z.sgn (a - k) <= 0 -> (0 <= inject_Z a / inject_Z k <= 1)%Q.
Proof.
  intros K H. rewrite <- Z.sgn_mul in H.
  destruct (Z.ltb_spec 0 k) as [L|L].
  - assert (0 <= a <= k) by nia. split.
    + apply Qle_shift_div_l; [change 0%Q with (inject_Z 0); apply Zlt_Q; lia|]. rewrite Qmult_0_l. change 0%Q with (inject_Z 0). apply Zle_Q. lia.
    + apply Qle_shift_div_r; [change 0%Q with (inject_Z 0); apply Zlt_Q; lia|]. rewrite Qmult_1_l. apply Zle_Q. lia.
  - assert (k <= a <= 0) by nia. assert (NZ : ~ (inject_Z k == 0)%Q) by (change 0%Q with (inject_Z 0); rewrite injZ_eq; exact K).
    assert (R : (inject_Z a / inject_Z k == inject_Z (- a) / inject_Z (- k))%Q) by (rewrite !inject_Z_opp; field; exact NZ).
    rewrite R. split.
    + apply Qle_shift_div_l; [change 0%Q with (inject_Z 0); apply Zlt_Q; lia|]. rewrite Qmult_0_l. change 0%Q with (inject_Z 0). apply Zle_Q. lia.
    + apply Qle_shift_div_r; [change 0%Q with (inject_Z 0); apply Zlt_Q; lia|]. rewrite Qmult_1_l. apply Zle_Q. lia.
Qed.

(* ---------- collinear segments ---------- *)
Definition between (a b t : Q) : Prop := ((a <= t /\ t <= b) \/ (b <= t /\ t <= a))%Q.
Definition line_at (s : seg) (t : Q) : Q * Q := seg_at s t.
Definition nondeg (s : seg) : Prop := s_low s <> s_high s.
Lemma nondeg_d s : nondeg s -> px (s_high s) - px (s_low s) <> 0 \/ py (s_high s) - py (s_low s) <> 0.
Proof.
  intros N. destruct (Z.eq_dec (px (s_high s) - px (s_low s)) 0) as [E|E]; [|left; exact E]. right. intros F. apply N.
  destruct s as [[a b] [c d]]; cbn [s_low s_high px py] in *. f_equal; lia.
Qed.
Lemma on_line s q : nondeg s -> (qside s q == 0)%Q -> exists t, same_pt (seg_at s t) q.
Proof.
  intros N E. unfold qside in E. unfold same_pt, seg_at; cbn [fst snd].
  set (dx := inject_Z (px (s_high s) - px (s_low s))) in *. set (dy := inject_Z (py (s_high s) - py (s_low s))) in *.
  destruct (nondeg_d s N) as [H|H]; rewrite <- injZ_eq in H; change (inject_Z 0) with 0%Q in H.
  - fold dx in H. exists ((fst q - inject_Z (px (s_low s))) / dx)%Q. split; [field; exact H|].
    apply (Qmult_inj_r _ _ dx H). field_simplify; [|exact H]. lra.
  - fold dy in H. exists ((snd q - inject_Z (py (s_low s))) / dy)%Q. split; [|field; exact H].
    apply (Qmult_inj_r _ _ dy H). field_simplify; [|exact H]. lra.
Qed.
Lemma seg_at_inj s t u : nondeg s -> same_pt (seg_at s t) (seg_at s u) -> (t == u)%Q.
Proof.
  intros N [E1 E2]. unfold seg_at in *; cbn [fst snd] in *. destruct (nondeg_d s N) as [H|H]; rewrite <- injZ_eq in H; change (inject_Z 0) with 0%Q in H.
  - apply (Qmult_inj_r _ _ _ H). lra.
  - apply (Qmult_inj_r _ _ _ H). lra.
Qed.
Lemma same_sym p q : same_pt p q -> same_pt q p.
Proof. intros [A B]. split; symmetry; assumption. Qed.
Lemma same_trans p q r : same_pt p q -> same_pt q r -> same_pt p r.
Proof. intros [A B] [C D]. split; [rewrite A|rewrite B]; assumption. Qed.
Lemma seg_at_0 s : same_pt (seg_at s 0) (qpt (s_low s)).
Proof. split; unfold seg_at, qpt; cbn [fst snd]; ring. Qed.
Lemma seg_at_1 s : same_pt (seg_at s 1) (qpt (s_high s)).
Proof. split; unfold seg_at, qpt; cbn [fst snd]; rewrite injZ_sub; ring. Qed.
(* the position of a collinear segment on the line of another one *)
Lemma collinear_at s1 s2 a b u : same_pt (seg_at s1 a) (qpt (s_low s2)) -> same_pt (seg_at s1 b) (qpt (s_high s2)) ->
  same_pt (seg_at s2 u) (seg_at s1 (a + u * (b - a))).
Proof.
  intros [A1 A2] [B1 B2]. unfold same_pt, seg_at, qpt in *; cbn [fst snd] in *.
  pose proof (injZ_sub (px (s_high s2)) (px (s_low s2))) as S1. pose proof (injZ_sub (py (s_high s2)) (py (s_low s2))) as S2. rewrite S1, S2.
  rewrite <- A1, <- A2, <- B1, <- B2. split; ring.
Qed.
Lemma between_u a b t : between a b t -> exists u, (0 <= u /\ u <= 1)%Q /\ (a + u * (b - a) == t)%Q.
Proof.
  intros H. destruct (Qeq_dec a b) as [E|E].
  - exists 0%Q. split; [lra|]. destruct H; lra.
  - exists ((t - a) / (b - a))%Q. assert (NZ : ~ (b - a == 0)%Q) by (intros F; apply E; lra). split; [|field; exact NZ].
    destruct (Qlt_le_dec a b) as [L|L].
    + assert (a <= t <= b)%Q by (destruct H; lra). split; [apply Qle_shift_div_l; lra|apply Qle_shift_div_r; lra].
    + assert (b <= t <= a)%Q by (destruct H; lra). setoid_replace ((t - a) / (b - a))%Q with ((a - t) / (a - b))%Q by (field; split; lra).
      split; [apply Qle_shift_div_l; lra|apply Qle_shift_div_r; lra].
Qed.
Lemma u_between a b u : (0 <= u /\ u <= 1)%Q -> between a b (a + u * (b - a)).
Proof. intros U. unfold between. destruct (Qlt_le_dec a b); [left|right]; nra. Qed.
Lemma collinear_on s1 s2 a b t : nondeg s1 -> same_pt (seg_at s1 a) (qpt (s_low s2)) -> same_pt (seg_at s1 b) (qpt (s_high s2)) ->
  (on_seg s2 (seg_at s1 t) <-> between a b t) /\ (on_seg s1 (seg_at s1 t) <-> (0 <= t /\ t <= 1)%Q) /\
  (seg_end s2 (seg_at s1 t) <-> (t == a \/ t == b)%Q) /\ (seg_end s1 (seg_at s1 t) <-> (t == 0 \/ t == 1)%Q).
Proof.
  intros N A B.
  assert (W : forall t u, (t == u)%Q -> same_pt (seg_at s1 t) (seg_at s1 u)) by (intros x y E; unfold same_pt, seg_at; cbn [fst snd]; split; rewrite E; reflexivity).
  split; [split|split; [split|split; split]].
  - intros [u [U E]]. pose proof (u_between a b u U) as H. assert (F : (t == a + u * (b - a))%Q).
    { apply (seg_at_inj s1 _ _ N). apply same_sym, (same_trans _ (seg_at s2 u)); [apply same_sym, collinear_at; assumption|exact E]. }
    unfold between in *. rewrite F. exact H.
  - intros H. apply between_u in H as [u [U E]]. exists u. split; [exact U|].
    apply (same_trans _ (seg_at s1 (a + u * (b - a)))); [apply collinear_at; assumption|apply W; exact E].
  - intros [u [U E]]. apply (seg_at_inj s1 _ _ N) in E. lra.
  - intros U. exists t. split; [exact U|]. apply W. reflexivity.
  - intros [E|E]; [left|right]; apply (seg_at_inj s1 _ _ N); apply (same_trans _ _ _ E), same_sym; assumption.
  - intros [E|E]; [left|right]; apply (same_trans _ _ _ (W _ _ E)); assumption.
  - intros [E|E]; [left|right]; apply (seg_at_inj s1 _ _ N); apply (same_trans _ _ _ E), same_sym; [apply seg_at_0|apply seg_at_1].
  - intros [E|E]; [left|right]; apply (same_trans _ _ _ (W _ _ E)); [apply seg_at_0|apply seg_at_1].
Qed.
(* ranges on an axis: X + t D *)
Lemma axis_meet X D a b w : ~ (D == 0)%Q -> between X (X + D) w -> between (X + a * D) (X + b * D) w ->
  exists t, (0 <= t /\ t <= 1)%Q /\ between a b t.
Proof.
  intros N H1 H2. exists ((w - X) / D)%Q. set (t := ((w - X) / D)%Q). assert (E : (w == X + t * D)%Q) by (unfold t; field; exact N). clearbody t.
  unfold between in *. rewrite E in H1, H2. destruct (Qlt_le_dec 0 D) as [L|L].
  - split.
    + destruct H1 as [[P Q]|[P Q]]; nra.
    + destruct H2 as [[P Q]|[P Q]]; [left|right]; split; apply (Qmult_le_r _ _ D L); lra.
  - assert (M : (0 < - D)%Q) by lra. split.
    + destruct H1 as [[P Q]|[P Q]]; nra.
    + destruct H2 as [[P Q]|[P Q]]; [right|left]; split; apply (Qmult_le_r _ _ (- D) M); lra.
Qed.
(* overlapping open or crossing ranges *)
Definition overlap (a b c d : Q) : Prop := ((a < c \/ a < d \/ b < c \/ b < d) /\ (c < a \/ c < b \/ d < a \/ d < b))%Q.
Lemma overlap_iff a b c d : overlap a b c d <-> exists t, between a b t /\ between c d t /\ ~ ((t == a \/ t == b) /\ (t == c \/ t == d))%Q.
Proof.
  assert (O : forall a b c d, (a <= b)%Q -> (c <= d)%Q -> (a < d)%Q -> (c < b)%Q ->
     exists t, ((a <= t /\ t <= b) /\ (c <= t /\ t <= d) /\ ~ ((t == a \/ t == b) /\ (t == c \/ t == d)))%Q).
  { clear. intros a b c d A C H K.
    destruct (Qlt_le_dec a c) as [L|L]; destruct (Qlt_le_dec b d) as [M|M].
    - exists ((c + b) * (1 # 2))%Q. repeat split; try lra; intros [[E|E] [F|F]]; lra.
    - destruct (Qeq_dec c d) as [E|E]; [|exists ((c + d) * (1 # 2))%Q; repeat split; try lra; intros [[E1|E1] [F|F]]; lra].
      destruct (Qeq_dec d b) as [E2|E2]; [exfalso; lra|]. exists c. repeat split; try lra; intros [[E1|E1] _]; lra.
    - destruct (Qeq_dec a b) as [E|E]; [|exists ((a + b) * (1 # 2))%Q; repeat split; try lra; intros [[E1|E1] [F|F]]; lra].
      exists a. repeat split; try lra; intros [_ [E1|E1]]; lra.
    - exists ((a + d) * (1 # 2))%Q. repeat split; try lra; intros [[E|E] [F|F]]; lra. }
  unfold overlap, between. split.
  - intros H. destruct (Qlt_le_dec b a) as [A|A]; destruct (Qlt_le_dec d c) as [C|C].
    + destruct (O b a d c) as [t [P [Q R]]]; [lra|lra|lra|lra|]. exists t. split; [right; exact P|]. split; [right; exact Q|]. tauto.
    + destruct (O b a c d) as [t [P [Q R]]]; [lra|lra|lra|lra|]. exists t. split; [right; exact P|]. split; [left; exact Q|]. tauto.
    + destruct (O a b d c) as [t [P [Q R]]]; [lra|lra|lra|lra|]. exists t. split; [left; exact P|]. split; [right; exact Q|]. tauto.
    + destruct (O a b c d) as [t [P [Q R]]]; [lra|lra|lra|lra|]. exists t. split; [left; exact P|]. split; [left; exact Q|]. tauto.
  - intros [t [P [Q R]]].
    assert (N1 : (~ t == a /\ ~ t == b)%Q \/ (~ t == c /\ ~ t == d)%Q).
    { destruct (Qeq_dec t a), (Qeq_dec t b), (Qeq_dec t c), (Qeq_dec t d); tauto. }
    split.
    + destruct (Qlt_le_dec a c); [auto|]. destruct (Qlt_le_dec a d); [auto|]. destruct (Qlt_le_dec b c); [auto|]. destruct (Qlt_le_dec b d); [auto|].
      exfalso. destruct P, Q, N1; lra.
    + destruct (Qlt_le_dec c a); [auto|]. destruct (Qlt_le_dec c b); [auto|]. destruct (Qlt_le_dec d a); [auto|]. destruct (Qlt_le_dec d b); [auto|].
      exfalso. destruct P, Q, N1; lra.
Qed.
Lemma overlap_axis X D a b : overlap X (X + D) (X + a * D) (X + b * D) <-> ~ (D == 0)%Q /\ overlap 0 1 a b.
Proof.
  unfold overlap. destruct (Qeq_dec D 0) as [E|E].
  - split; [|tauto]. rewrite E. lra.
  - split.
    + intros H. split; [exact E|]. destruct (Qlt_le_dec 0 D) as [L|L].
      * split.
        -- destruct H as [[H|[H|[H|H]]] _]; [left|right; left|right; right; left|right; right; right]; apply (Qmult_lt_r _ _ D L); lra.
        -- destruct H as [_ [H|[H|[H|H]]]]; [left|right; left|right; right; left|right; right; right]; apply (Qmult_lt_r _ _ D L); lra.
      * assert (M : (0 < - D)%Q) by lra. split.
        -- destruct H as [_ [H|[H|[H|H]]]]; [left|right; right; left|right; left|right; right; right]; apply (Qmult_lt_r _ _ (- D) M); lra.
        -- destruct H as [[H|[H|[H|H]]] _]; [left|right; right; left|right; left|right; right; right]; apply (Qmult_lt_r _ _ (- D) M); lra.
    + intros [_ H]. destruct (Qlt_le_dec 0 D) as [L|L].
      * split.
        -- destruct H as [[H|[H|[H|H]]] _]; apply (Qmult_lt_r _ _ D L) in H; lra.
        -- destruct H as [_ [H|[H|[H|H]]]]; apply (Qmult_lt_r _ _ D L) in H; lra.
      * assert (M : (0 < - D)%Q) by lra. split.
        -- destruct H as [_ [H|[H|[H|H]]]]; apply (Qmult_lt_r _ _ (- D) M) in H; lra.
        -- destruct H as [[H|[H|[H|H]]] _]; apply (Qmult_lt_r _ _ (- D) M) in H; lra.
Qed.
Lemma open_overlap a b c d : intersects_i (mk_ivl (Z.min a b) (Z.max a b)) (mk_ivl (Z.min c d) (Z.max c d)) false = true <->
  overlap (inject_Z a) (inject_Z b) (inject_Z c) (inject_Z d).
Proof. unfold intersects_i, overlap; cbn [lo hi]. rewrite !Zlt_Q. lia. Qed.

(* two collinear segments, the first not a point *)
Lemma collinear_case s1 s2 : nondeg s1 -> side s1 (s_low s2) = 0 -> side s1 (s_high s2) = 0 ->
  (r_intersects (seg_box s1) (seg_box s2) true = true -> exists q, on_seg s1 q /\ on_seg s2 q) /\
  (intersects_i (sy s1) (sy s2) false || intersects_i (sx s1) (sx s2) false = true <->
   exists q, on_seg s1 q /\ on_seg s2 q /\ ~ (seg_end s1 q /\ seg_end s2 q)).
Proof.
  intros N H1 H2.
  destruct (on_line s1 (qpt (s_low s2)) N) as [a A]; [rewrite qside_side, H1; reflexivity|].
  destruct (on_line s1 (qpt (s_high s2)) N) as [b B]; [rewrite qside_side, H2; reflexivity|].
  pose proof (fun t => collinear_on s1 s2 a b t N A B) as C.
  assert (SX : (inject_Z (px (s_high s1)) == inject_Z (px (s_low s1)) + inject_Z (px (s_high s1) - px (s_low s1)))%Q) by (rewrite injZ_sub; ring).
  assert (SY : (inject_Z (py (s_high s1)) == inject_Z (py (s_low s1)) + inject_Z (py (s_high s1) - py (s_low s1)))%Q) by (rewrite injZ_sub; ring).
  pose proof (nondeg_d s1 N) as ND. rewrite <- (injZ_eq (px (s_high s1) - _)), <- (injZ_eq (py (s_high s1) - _)) in ND. change (inject_Z 0) with 0%Q in ND.
  pose proof A as [A1 A2]. pose proof B as [B1 B2]. unfold seg_at, qpt in A1, A2, B1, B2; cbn [fst snd] in A1, A2, B1, B2.
  split.
  - rewrite boxes_meet. intros [[w [W1 W2]] [v [V1 V2]]].
    assert (T : exists t, (0 <= t /\ t <= 1)%Q /\ between a b t).
    { unfold sx, sy in *. rewrite in_minmax in W1, W2, V1, V2. fold (between (inject_Z (px (s_low s1))) (inject_Z (px (s_high s1))) w) in W1.
      fold (between (inject_Z (px (s_low s2))) (inject_Z (px (s_high s2))) w) in W2. fold (between (inject_Z (py (s_low s1))) (inject_Z (py (s_high s1))) v) in V1.
      fold (between (inject_Z (py (s_low s2))) (inject_Z (py (s_high s2))) v) in V2. unfold between in W1, W2, V1, V2.
      rewrite <- A1, <- B1 in W2. rewrite <- A2, <- B2 in V2. rewrite SX in W1. rewrite SY in V1.
      destruct ND as [ND|ND]; [exact (axis_meet _ _ _ _ _ ND W1 W2)|exact (axis_meet _ _ _ _ _ ND V1 V2)]. }
    destruct T as [t [T1 T2]]. exists (seg_at s1 t). destruct (C t) as [C1 [C2 _]]. split; [apply C2|apply C1]; assumption.
  - assert (E : (intersects_i (sy s1) (sy s2) false || intersects_i (sx s1) (sx s2) false = true) <-> overlap 0 1 a b).
    { rewrite orb_true_iff. unfold sx, sy. rewrite !open_overlap.
      assert (EX : overlap (inject_Z (px (s_low s1))) (inject_Z (px (s_high s1))) (inject_Z (px (s_low s2))) (inject_Z (px (s_high s2))) <->
        ~ (inject_Z (px (s_high s1) - px (s_low s1)) == 0)%Q /\ overlap 0 1 a b).
      { rewrite <- (overlap_axis (inject_Z (px (s_low s1)))). unfold overlap. rewrite A1, B1, <- SX. reflexivity. }
      assert (EY : overlap (inject_Z (py (s_low s1))) (inject_Z (py (s_high s1))) (inject_Z (py (s_low s2))) (inject_Z (py (s_high s2))) <->
        ~ (inject_Z (py (s_high s1) - py (s_low s1)) == 0)%Q /\ overlap 0 1 a b).
      { rewrite <- (overlap_axis (inject_Z (py (s_low s1)))). unfold overlap. rewrite A2, B2, <- SY. reflexivity. }
      rewrite EX, EY. tauto. }
    rewrite E, overlap_iff. split.
    + intros [t [P [Q R]]]. exists (seg_at s1 t). destruct (C t) as [C1 [C2 [C3 C4]]]. rewrite C1, C2, C3, C4. split; [unfold between in P; lra|]. tauto.
    + intros [q [O1 [O2 O3]]]. pose proof O1 as [t [T E1]]. exists t. destruct (C t) as [C1 [C2 [C3 C4]]].
      split; [left; exact T|]. split; [apply C1; apply (on_seg_wd s2 q); [apply same_sym; exact E1|exact O2]|].
      rewrite <- C3, <- C4. intros [F1 F2]. apply O3. unfold seg_end in *. split; [destruct F1 as [F|F]; [left|right]|destruct F2 as [F|F]; [left|right]]; apply (same_trans _ _ _ (same_sym _ _ E1) F).
Qed.

(* ---------- intersects ---------- *)
Lemma common_boxes s1 s2 q : on_seg s1 q -> on_seg s2 q -> r_intersects (seg_box s1) (seg_box s2) true = true.
Proof.
  intros A B. apply on_seg_iff in A as [_ [A1 A2]]. apply on_seg_iff in B as [_ [B1 B2]]. apply boxes_meet. split; [exists (fst q)|exists (snd q)]; auto.
Qed.
Lemma common_sides s1 s2 q : on_seg s1 q -> on_seg s2 q ->
  Z.sgn (side s1 (s_low s2)) * Z.sgn (side s1 (s_high s2)) <= 0 /\ Z.sgn (side s2 (s_low s1)) * Z.sgn (side s2 (s_high s1)) <= 0.
Proof.
  intros [t [T A]] [u [U B]]. destruct (meet_param s1 s2 q t u A B) as [H1 H2]. destruct (side_ends s1 s2) as [E1 E2]. rewrite E1, E2. split.
  - exact (opp_sides _ _ u U H1).
  - apply (opp_sides _ (- cross s1 s2) t T). rewrite inject_Z_opp. lra.
Qed.
Lemma cross_nondeg s1 s2 : cross s1 s2 <> 0 -> nondeg s1 /\ nondeg s2.
Proof. intros K. split; intros E; apply K; unfold cross; rewrite E; ring. Qed.
Lemma end_param s t : nondeg s -> seg_end s (seg_at s t) <-> (t == 0 \/ t == 1)%Q.
Proof. intros N. apply (collinear_on s s 0 1 t N (seg_at_0 s) (seg_at_1 s)). Qed.
Lemma seg_end_wd s p q : same_pt p q -> seg_end s p -> seg_end s q.
Proof. intros E [H|H]; [left|right]; apply (same_trans _ _ _ (same_sym _ _ E) H). Qed.
Lemma cross_case s1 s2 : cross s1 s2 <> 0 ->
  Z.sgn (side s1 (s_low s2)) * Z.sgn (side s1 (s_high s2)) <= 0 -> Z.sgn (side s2 (s_low s1)) * Z.sgn (side s2 (s_high s1)) <= 0 ->
  (exists q, on_seg s1 q /\ on_seg s2 q) /\
  (forall q, on_seg s1 q -> on_seg s2 q ->
     (seg_end s1 q <-> side s2 (s_low s1) = 0 \/ side s2 (s_high s1) = 0) /\ (seg_end s2 q <-> side s1 (s_low s2) = 0 \/ side s1 (s_high s2) = 0)).
Proof.
  intros K H1 H2. destruct (side_ends s1 s2) as [E1 E2]. destruct (cross_nondeg s1 s2 K) as [N1 N2].
  assert (NZ : ~ (inject_Z (cross s1 s2) == 0)%Q) by (change 0%Q with (inject_Z 0); rewrite injZ_eq; exact K). split.
  - pose proof (crossing s1 s2 K) as C. cbv zeta in C. rewrite E2 in H2. pose proof (ratio_range _ _ K H2) as T.
    rewrite E1 in H1. assert (H1' : Z.sgn (- side s1 (s_low s2)) * Z.sgn (- side s1 (s_low s2) - cross s1 s2) <= 0).
    { rewrite <- Z.sgn_mul in *. replace (- side s1 (s_low s2) * (- side s1 (s_low s2) - cross s1 s2)) with (side s1 (s_low s2) * (side s1 (s_low s2) + cross s1 s2)) by ring. exact H1. }
    pose proof (ratio_range _ _ K H1') as U. rewrite inject_Z_opp in U.
    exists (seg_at s1 (inject_Z (side s2 (s_low s1)) / inject_Z (cross s1 s2))). split.
    + exists (inject_Z (side s2 (s_low s1)) / inject_Z (cross s1 s2))%Q. split; [exact T|]. split; reflexivity.
    + exists (- inject_Z (side s1 (s_low s2)) / inject_Z (cross s1 s2))%Q. split; [exact U|]. apply same_sym. exact C.
  - intros q [t [T A]] [u [U B]]. destruct (meet_param s1 s2 q t u A B) as [P1 P2].
    assert (F1 : seg_end s1 q <-> (t == 0 \/ t == 1)%Q).
    { rewrite <- (end_param s1 t N1). split; apply seg_end_wd; [apply same_sym|]; exact A. }
    assert (F2 : seg_end s2 q <-> (u == 0 \/ u == 1)%Q).
    { rewrite <- (end_param s2 u N2). split; apply seg_end_wd; [apply same_sym|]; exact B. }
    rewrite F1, F2, E1, E2. rewrite <- !injZ_eq, injZ_sub, inject_Z_plus. change (inject_Z 0) with 0%Q.
    set (kk := inject_Z (cross s1 s2)) in *. set (o1 := inject_Z (side s1 (s_low s2))) in *. set (o2 := inject_Z (side s2 (s_low s1))) in *.
    split.
    + split.
      * intros [Z0|Z0]; [left|right]; rewrite Z0 in P2; lra.
      * intros [Z0|Z0]; [left|right]; apply (Qmult_inj_r _ _ kk NZ); lra.
    + split.
      * intros [Z0|Z0]; [left|right]; rewrite Z0 in P1; lra.
      * intros [Z0|Z0]; [left|right]; apply (Qmult_inj_r _ _ kk NZ); lra.
Qed.
Lemma deg_dec s : nondeg s \/ s_low s = s_high s.
Proof.
  unfold nondeg. destruct (pt_eqb (s_low s) (s_high s)) eqn:E; [right; apply pt_eqb_spec; exact E|left]. intros H. apply pt_eqb_spec in H. congruence.
Qed.
Lemma deg_on s q : s_low s = s_high s -> on_seg s q -> seg_end s q.
Proof. intros E [t [T [A B]]]. left. unfold seg_at, qpt in *; cbn [fst snd] in *. rewrite E, !Z.sub_diag in A, B. change (inject_Z 0) with 0%Q in *. rewrite E. unfold same_pt; cbn [fst snd]. split; lra. Qed.
Lemma parallel_case s1 s2 : side s1 (s_low s2) = 0 -> side s1 (s_high s2) = 0 -> side s2 (s_low s1) = 0 -> side s2 (s_high s1) = 0 ->
  r_intersects (seg_box s1) (seg_box s2) true = true ->
  (exists q, on_seg s1 q /\ on_seg s2 q) /\
  (intersects_i (sy s1) (sy s2) false || intersects_i (sx s1) (sx s2) false = true <->
   exists q, on_seg s1 q /\ on_seg s2 q /\ ~ (seg_end s1 q /\ seg_end s2 q)).
Proof.
  intros H1 H2 H3 H4 M. destruct (deg_dec s1) as [N|D1].
  - destruct (collinear_case s1 s2 N H1 H2) as [C1 C2]. split; [apply C1; exact M|exact C2].
  - destruct (deg_dec s2) as [N|D2].
    + destruct (collinear_case s2 s1 N H3 H4) as [C1 C2]. split.
      * destruct C1 as [q [A B]]; [|exists q; auto]. unfold r_intersects in *. rewrite (intersects_sym (horizontal _)), (intersects_sym (vertical _)). exact M.
      * rewrite (intersects_sym (sy s1)), (intersects_sym (sx s1)), C2. split; intros [q [A [B C]]]; exists q; tauto.
    + apply boxes_meet in M as [[w [W1 W2]] [v [V1 V2]]].
      unfold in_ivl, sx, sy in *; cbn [lo hi] in *. rewrite D1, D2, Z.min_id, Z.max_id in *.
      assert (E : same_pt (qpt (s_high s1)) (qpt (s_high s2))) by (unfold same_pt, qpt; cbn [fst snd]; split; lra). split.
      * exists (qpt (s_high s1)). split; [apply on_seg_high|]. apply (on_seg_wd s2 _ _ (same_sym _ _ E)). apply on_seg_high.
      * split.
        -- intros H. exfalso. unfold intersects_i in H; cbn [lo hi] in H. destruct E as [E3 E4]; unfold qpt in *; cbn [fst snd] in *. rewrite injZ_eq in E3, E4. lia.
        -- intros [q [A [B C]]]. exfalso. apply C. split; apply deg_on; assumption.
Qed.
Lemma intersects_eq s1 s2 touch : seg_int s1 -> seg_int s2 -> exists b, seg_intersects s1 s2 touch = Ok b /\
  (b = true <-> exists q, on_seg s1 q /\ on_seg s2 q /\ (touch = false -> ~ (seg_end s1 q /\ seg_end s2 q))).
Proof.
  intros S1 S2. pose proof S1 as [L1 R1]. pose proof S2 as [L2 R2]. unfold seg_intersects.
  rewrite !orientation_pt_eq by assumption. cbn [obind].
  assert (NO : forall P : Q * Q -> Prop, (forall q, on_seg s1 q -> on_seg s2 q -> False) -> exists b, Ok false = Ok b /\ (b = true <-> exists q, on_seg s1 q /\ on_seg s2 q /\ P q)).
  { intros P H. exists false. split; [reflexivity|]. split; [discriminate|]. intros [q [A [B _]]]. exfalso. exact (H q A B). }
  destruct (r_intersects (seg_box s1) (seg_box s2) true) eqn:M; cbn [negb].
  2:{ apply NO. intros q A B. pose proof (common_boxes s1 s2 q A B). congruence. }
  destruct (Z.sgn (side s1 (s_low s2)) * Z.sgn (side s1 (s_high s2)) >? 0) eqn:O1.
  { apply NO. intros q A B. pose proof (common_sides s1 s2 q A B). lia. }
  destruct (Z.sgn (side s2 (s_low s1)) * Z.sgn (side s2 (s_high s1)) >? 0) eqn:O2.
  { apply NO. intros q A B. pose proof (common_sides s1 s2 q A B). lia. }
  destruct (side_ends s1 s2) as [E1 E2]. rewrite !box_x, !box_y.
  destruct (Z.eq_dec (cross s1 s2) 0) as [K|K].
  - assert (Z1 : side s1 (s_low s2) = 0) by (rewrite E1, K, Z.add_0_r, <- Z.sgn_mul in O1; nia).
    assert (Z2 : side s2 (s_low s1) = 0) by (rewrite E2, K, Z.sub_0_r, <- Z.sgn_mul in O2; nia).
    assert (Z3 : side s1 (s_high s2) = 0) by lia. assert (Z4 : side s2 (s_high s1) = 0) by lia.
    destruct (parallel_case s1 s2 Z1 Z3 Z2 Z4 M) as [C1 C2]. rewrite Z1, Z2, Z3, Z4. cbn [Z.sgn Z.eqb negb andb orb].
    destruct touch; cbn [orb].
    + exists true. split; [reflexivity|]. split; [|reflexivity]. intros _. destruct C1 as [q [A B]]. exists q. split; [exact A|]. split; [exact B|discriminate].
    + exists (intersects_i (sy s1) (sy s2) false || intersects_i (sx s1) (sx s2) false). split; [reflexivity|]. rewrite C2.
      split; intros [q [A [B C]]]; exists q; (split; [exact A|]; split; [exact B|]); [intros _; exact C|apply C; reflexivity].
  - destruct (cross_case s1 s2 K) as [C1 C2]; [lia|lia|]. destruct C1 as [q [A B]].
    assert (SG : forall z, negb (Z.sgn z =? 0) = negb (z =? 0)) by (intros z; f_equal; lia). rewrite !SG.
    destruct (touch || negb (side s1 (s_low s2) =? 0) && negb (side s1 (s_high s2) =? 0) || negb (side s2 (s_low s1) =? 0) && negb (side s2 (s_high s1) =? 0)) eqn:T.
    + exists true. split; [reflexivity|]. split; [|reflexivity]. intros _. exists q. split; [exact A|]. split; [exact B|]. intros ->.
      destruct (C2 q A B) as [F1 F2]. rewrite F1, F2. lia.
    + assert (V : negb (side s1 (s_low s2) =? 0) || negb (side s1 (s_high s2) =? 0) = true) by lia. rewrite V.
      exists false. split; [reflexivity|]. split; [discriminate|]. intros [p [P [P' C]]]. exfalso.
      destruct (C2 p P P') as [F1 F2]. rewrite F1, F2 in C. assert (touch = false) by (destruct touch; [discriminate|reflexivity]). specialize (C H). lia.
Qed.
