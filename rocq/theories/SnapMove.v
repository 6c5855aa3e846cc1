(* Real geometry for snap rounding: when the ends of two crossing segments move
   along straight lines until the segments do not meet any more, an end of one of
   them passes over the other. *)
From Coq Require Import Reals Lra Psatz.
Local Open Scope R_scope.

Definition orient (ax ay bx by_ cx cy : R) : R := (bx - ax) * (cy - ay) - (by_ - ay) * (cx - ax).
Definition unit (t : R) : Prop := 0 <= t <= 1.
(* the segments ab and cd meet *)
Definition meets (ax ay bx by_ cx cy dx dy : R) : Prop :=
  exists s t, unit s /\ unit t /\ ax + s * (bx - ax) = cx + t * (dx - cx) /\ ay + s * (by_ - ay) = cy + t * (dy - cy).
(* c is on ab *)
Definition on (ax ay bx by_ cx cy : R) : Prop := exists s, unit s /\ ax + s * (bx - ax) = cx /\ ay + s * (by_ - ay) = cy.
Definition touch (ax ay bx by_ cx cy dx dy : R) : Prop :=
  on cx cy dx dy ax ay \/ on cx cy dx dy bx by_ \/ on ax ay bx by_ cx cy \/ on ax ay bx by_ dx dy.

(* numbers between: a position on the line through a number range *)
Lemma range_param p q x : p <> q -> exists g, x = p + g * (q - p).
Proof. intros N. exists ((x - p) / (q - p)). field. lra. Qed.
Lemma unit_mul p q g : p <> q -> (Rmin p q <= p + g * (q - p) <= Rmax p q) -> unit g.
Proof.
  intros N H. unfold unit. unfold Rmin, Rmax in H. destruct (Rle_dec p q).
  - assert (P : 0 < q - p) by lra. split; [apply (Rmult_le_reg_r (q - p)); lra|apply (Rmult_le_reg_r (q - p)); lra].
  - assert (P : 0 < p - q) by lra. split; [apply (Rmult_le_reg_r (p - q)); lra|apply (Rmult_le_reg_r (p - q)); lra].
Qed.
(* the point of [g, h] nearest to [0, 1] is in it if the ranges overlap *)
Lemma overlap_unit g h : Rmin g h <= 1 -> 0 <= Rmax g h -> exists s t, unit s /\ unit t /\ s = g + t * (h - g).
Proof.
  unfold Rmin, Rmax, unit. destruct (Rle_dec g h) as [L|L]; intros H K.
  - destruct (Rle_dec 0 g) as [G|G].
    + exists g, 0. repeat split; lra.
    + exists 0, (- g / (h - g)). assert (P : 0 < h - g) by lra. repeat split; try lra.
      * apply Rmult_le_reg_r with (h - g); [exact P|]. unfold Rdiv. rewrite Rmult_assoc, Rinv_l by lra. lra.
      * apply Rmult_le_reg_r with (h - g); [exact P|]. unfold Rdiv. rewrite Rmult_assoc, Rinv_l by lra. lra.
      * field. lra.
  - destruct (Rle_dec 0 h) as [G|G].
    + exists h, 1. repeat split; lra.
    + exists 0, (g / (g - h)). assert (P : 0 < g - h) by lra. repeat split; try lra.
      * apply Rmult_le_reg_r with (g - h); [exact P|]. unfold Rdiv. rewrite Rmult_assoc, Rinv_l by lra. lra.
      * apply Rmult_le_reg_r with (g - h); [exact P|]. unfold Rdiv. rewrite Rmult_assoc, Rinv_l by lra. lra.
      * field. lra.
Qed.
(* overlapping boxes in one coordinate, of segments on one line *)
Lemma overlap_line p q g h : p <> q ->
  Rmin p q <= Rmax (p + g * (q - p)) (p + h * (q - p)) -> Rmin (p + g * (q - p)) (p + h * (q - p)) <= Rmax p q ->
  Rmin g h <= 1 /\ 0 <= Rmax g h.
Proof.
  intros N H K. unfold Rmin, Rmax in *.
  destruct (Rle_dec p q) as [L|L].
  - assert (P : 0 < q - p) by lra.
    destruct (Rle_dec g h) as [G|G]; destruct (Rle_dec (p + g * (q - p)) (p + h * (q - p))) as [M|M].
    + split; apply (Rmult_le_reg_r (q - p)); lra.
    + exfalso. apply M. apply Rplus_le_compat_l. apply Rmult_le_compat_r; lra.
    + exfalso. apply G. apply (Rmult_le_reg_r (q - p)); lra.
    + split; apply (Rmult_le_reg_r (q - p)); lra.
  - assert (P : 0 < p - q) by lra.
    destruct (Rle_dec g h) as [G|G]; destruct (Rle_dec (p + g * (q - p)) (p + h * (q - p))) as [M|M].
    + assert (h <= g) by (apply (Rmult_le_reg_r (p - q)); lra). assert (g = h) by lra. subst h. split; apply (Rmult_le_reg_r (p - q)); lra.
    + split; apply (Rmult_le_reg_r (p - q)); lra.
    + split; apply (Rmult_le_reg_r (p - q)); lra.
    + exfalso. apply M. assert (h * (p - q) <= g * (p - q)) by (apply Rmult_le_compat_r; lra). lra.
Qed.

(* a point on the line of a segment that is not a point *)
Lemma on_line_r ax ay bx by_ cx cy : ax <> bx \/ ay <> by_ -> orient ax ay bx by_ cx cy = 0 ->
  exists g, cx = ax + g * (bx - ax) /\ cy = ay + g * (by_ - ay).
Proof.
  unfold orient. intros [N|N] H.
  - destruct (range_param ax bx cx N) as [g G]. exists g. split; [exact G|]. rewrite G in H.
    apply (Rmult_eq_reg_l (bx - ax)); [|lra]. lra.
  - destruct (range_param ay by_ cy N) as [g G]. exists g. split; [|exact G]. rewrite G in H.
    apply (Rmult_eq_reg_l (by_ - ay)); [|lra]. lra.
Qed.
Lemma straddle_line ax ay bx by_ cx cy dx dy : ax <> bx \/ ay <> by_ ->
  orient ax ay bx by_ cx cy = 0 -> orient ax ay bx by_ dx dy = 0 ->
  Rmin ax bx <= Rmax cx dx -> Rmin cx dx <= Rmax ax bx -> Rmin ay by_ <= Rmax cy dy -> Rmin cy dy <= Rmax ay by_ ->
  meets ax ay bx by_ cx cy dx dy.
Proof.
  intros N H K X1 X2 Y1 Y2. destruct (on_line_r _ _ _ _ _ _ N H) as [g [G1 G2]]. destruct (on_line_r _ _ _ _ _ _ N K) as [h [H1 H2]].
  assert (O : Rmin g h <= 1 /\ 0 <= Rmax g h).
  { rewrite G1, H1 in X1, X2. rewrite G2, H2 in Y1, Y2. destruct N as [N|N]; [exact (overlap_line _ _ _ _ N X1 X2)|exact (overlap_line _ _ _ _ N Y1 Y2)]. }
  destruct O as [O1 O2]. destruct (overlap_unit g h O1 O2) as [s [t [S [T E]]]]. exists s, t. repeat split; try apply S; try apply T; rewrite ?G1, ?H1, ?G2, ?H2, E; ring.
Qed.
Lemma meets_sym ax ay bx by_ cx cy dx dy : meets ax ay bx by_ cx cy dx dy -> meets cx cy dx dy ax ay bx by_.
Proof. intros [s [t [S [T [E F]]]]]. exists t, s. repeat split; try apply S; try apply T; lra. Qed.
Lemma ratio_unit a b : a <> b -> a * b <= 0 -> unit (a / (a - b)).
Proof.
  intros N H. unfold unit. destruct (Rlt_dec b a) as [L|L].
  - assert (0 <= a /\ b <= 0) by nra. split; apply Rmult_le_reg_r with (a - b); try lra; unfold Rdiv; rewrite ?Rmult_assoc, ?Rinv_l by lra; lra.
  - assert (a <= 0 /\ 0 <= b) by nra. split; apply Rmult_le_reg_r with (b - a); try lra.
    + replace (a / (a - b) * (b - a)) with (- a) by (field; lra). lra.
    + replace (a / (a - b) * (b - a)) with (- a) by (field; lra). lra.
Qed.
Lemma straddle ax ay bx by_ cx cy dx dy :
  orient cx cy dx dy ax ay * orient cx cy dx dy bx by_ <= 0 -> orient ax ay bx by_ cx cy * orient ax ay bx by_ dx dy <= 0 ->
  Rmin ax bx <= Rmax cx dx -> Rmin cx dx <= Rmax ax bx -> Rmin ay by_ <= Rmax cy dy -> Rmin cy dy <= Rmax ay by_ ->
  meets ax ay bx by_ cx cy dx dy.
Proof.
  intros H K X1 X2 Y1 Y2.
  set (o1 := orient cx cy dx dy ax ay) in *. set (o2 := orient cx cy dx dy bx by_) in *.
  set (o3 := orient ax ay bx by_ cx cy) in *. set (o4 := orient ax ay bx by_ dx dy) in *.
  assert (D : o1 - o2 = o4 - o3) by (unfold o1, o2, o3, o4, orient; ring).
  destruct (Req_dec o1 o2) as [E|E].
  - assert (o1 = 0) by (rewrite <- E in H; nra). assert (o3 = 0) by (assert (o3 = o4) as E2 by lra; rewrite <- E2 in K; nra).
    assert (o2 = 0) by lra. assert (o4 = 0) by lra.
    destruct (Req_dec ax bx) as [EA|EA]; [destruct (Req_dec ay by_) as [EB|EB]|].
    + destruct (Req_dec cx dx) as [EC|EC]; [destruct (Req_dec cy dy) as [ED|ED]|].
      * subst bx by_ dx dy. exists 0, 0. unfold unit, Rmin, Rmax in *.
        repeat (match goal with H : context [if ?c then _ else _] |- _ => destruct c end). all: repeat split; lra.
      * apply meets_sym. apply straddle_line; try assumption. right. assumption.
      * apply meets_sym. apply straddle_line; try assumption. left. assumption.
    + apply straddle_line; try assumption. right. assumption.
    + apply straddle_line; try assumption. left. assumption.
  - exists (o1 / (o1 - o2)), (o3 / (o3 - o4)). split; [apply ratio_unit; assumption|]. split; [apply ratio_unit; [lra|assumption]|].
    assert (N1 : o1 - o2 <> 0) by lra. assert (N2 : o3 - o4 <> 0) by lra.
    replace (o3 - o4) with (- (o1 - o2)) in * by lra.
    assert (J1 : (ax - cx) * (o1 - o2) + o1 * (bx - ax) + o3 * (dx - cx) = 0) by (unfold o1, o2, o3, orient; ring).
    assert (J2 : (ay - cy) * (o1 - o2) + o1 * (by_ - ay) + o3 * (dy - cy) = 0) by (unfold o1, o2, o3, orient; ring).
    clearbody o1 o2 o3 o4. split.
    + apply (Rmult_eq_reg_r (o1 - o2)); [|exact N1].
      replace ((ax + o1 / (o1 - o2) * (bx - ax)) * (o1 - o2)) with (ax * (o1 - o2) + o1 * (bx - ax)) by (field; exact N1).
      replace ((cx + o3 / - (o1 - o2) * (dx - cx)) * (o1 - o2)) with (cx * (o1 - o2) - o3 * (dx - cx)) by (field; exact N1). lra.
    + apply (Rmult_eq_reg_r (o1 - o2)); [|exact N1].
      replace ((ay + o1 / (o1 - o2) * (by_ - ay)) * (o1 - o2)) with (ay * (o1 - o2) + o1 * (by_ - ay)) by (field; exact N1).
      replace ((cy + o3 / - (o1 - o2) * (dy - cy)) * (o1 - o2)) with (cy * (o1 - o2) - o3 * (dy - cy)) by (field; exact N1). lra.
Qed.

(* segments that meet and have an end on the line of the other one touch *)
Lemma touch_sym ax ay bx by_ cx cy dx dy : touch ax ay bx by_ cx cy dx dy -> touch cx cy dx dy ax ay bx by_.
Proof. unfold touch. tauto. Qed.
Lemma touch_swap ax ay bx by_ cx cy dx dy : touch bx by_ ax ay cx cy dx dy -> touch ax ay bx by_ cx cy dx dy.
Proof.
  assert (S : forall x y, on bx by_ ax ay x y -> on ax ay bx by_ x y).
  { intros x y [s [S [E F]]]. exists (1 - s). unfold unit in *. repeat split; try lra. }
  unfold touch. intros [H|[H|[H|H]]]; auto.
Qed.
Lemma meets_swap ax ay bx by_ cx cy dx dy : meets ax ay bx by_ cx cy dx dy -> meets bx by_ ax ay cx cy dx dy.
Proof. intros [s [t [S [T [E F]]]]]. exists (1 - s), t. unfold unit in *. repeat split; try lra. Qed.
Lemma touch_line ax ay bx by_ cx cy dx dy : orient cx cy dx dy ax ay = 0 -> orient cx cy dx dy bx by_ = 0 ->
  meets ax ay bx by_ cx cy dx dy -> touch ax ay bx by_ cx cy dx dy.
Proof.
  intros H K [s [t [S [T [E F]]]]].
  assert (ND : (cx = dx /\ cy = dy) \/ (cx <> dx \/ cy <> dy)) by (destruct (Req_dec cx dx), (Req_dec cy dy); auto).
  destruct ND as [[X Y]|ND].
  - right. right. left. exists s. subst dx dy. split; [exact S|]. lra.
  - destruct (on_line_r _ _ _ _ _ _ ND H) as [g [G1 G2]]. destruct (on_line_r _ _ _ _ _ _ ND K) as [h [H1 H2]].
    assert (ET : t = g + s * (h - g)).
    { rewrite G1, H1 in E. rewrite G2, H2 in F. destruct ND as [N|N].
      - apply (Rmult_eq_reg_r (dx - cx)); [|lra]. lra.
      - apply (Rmult_eq_reg_r (dy - cy)); [|lra]. lra. }
    destruct (Rle_dec 0 g) as [A|A]; [destruct (Rle_dec g 1) as [B|B]|].
    + left. exists g. unfold unit. repeat split; lra.
    + destruct (Rle_dec 0 h) as [C|C]; [destruct (Rle_dec h 1) as [D|D]|].
      * right. left. exists h. unfold unit. repeat split; lra.
      * exfalso. unfold unit in *. assert (0 <= s * (h - 1)) by (apply Rmult_le_pos; lra). assert (0 <= (1 - s) * (g - 1)) by (apply Rmult_le_pos; lra).
        assert (0 < s * (h - 1) + (1 - s) * (g - 1)); [|lra].
        destruct (Rle_dec s (1 / 2)); [assert (0 < (1 - s) * (g - 1)) by (apply Rmult_lt_0_compat; lra)|assert (0 < s * (h - 1)) by (apply Rmult_lt_0_compat; lra)]; lra.
      * right. right. left. exists (g / (g - h)). split; [apply ratio_unit; [lra|nra]|]. rewrite G1, H1, G2, H2. split; field; lra.
    + destruct (Rle_dec 0 h) as [C|C]; [destruct (Rle_dec h 1) as [D|D]|].
      * right. left. exists h. unfold unit. repeat split; lra.
      * right. right. left. exists (g / (g - h)). split; [apply ratio_unit; [lra|nra]|]. rewrite G1, H1, G2, H2. split; field; lra.
      * exfalso. unfold unit in *. assert (0 <= s * - h) by (apply Rmult_le_pos; lra). assert (0 <= (1 - s) * - g) by (apply Rmult_le_pos; lra).
        assert (0 < s * - h + (1 - s) * - g); [|lra].
        destruct (Rle_dec s (1 / 2)); [assert (0 < (1 - s) * - g) by (apply Rmult_lt_0_compat; lra)|assert (0 < s * - h) by (apply Rmult_lt_0_compat; lra)]; lra.
Qed.
Lemma touch_end ax ay bx by_ cx cy dx dy : orient cx cy dx dy ax ay = 0 ->
  meets ax ay bx by_ cx cy dx dy -> touch ax ay bx by_ cx cy dx dy.
Proof.
  intros H M. destruct (Req_dec (orient cx cy dx dy bx by_) 0) as [K|K]; [apply touch_line; assumption|].
  destruct M as [s [t [S [T [E F]]]]].
  assert (Z0 : s * orient cx cy dx dy bx by_ = 0).
  { replace (s * orient cx cy dx dy bx by_) with ((1 - s) * orient cx cy dx dy ax ay + s * orient cx cy dx dy bx by_) by (rewrite H; ring).
    replace ((1 - s) * orient cx cy dx dy ax ay + s * orient cx cy dx dy bx by_) with (orient cx cy dx dy (ax + s * (bx - ax)) (ay + s * (by_ - ay))) by (unfold orient; ring).
    rewrite E, F. unfold orient. ring. }
  apply Rmult_integral in Z0. destruct Z0 as [Z0|Z0]; [|contradiction]. subst s. left. exists t. split; [exact T|]. lra.
Qed.
Lemma touch_product ax ay bx by_ cx cy dx dy : orient cx cy dx dy ax ay * orient cx cy dx dy bx by_ = 0 ->
  meets ax ay bx by_ cx cy dx dy -> touch ax ay bx by_ cx cy dx dy.
Proof.
  intros H M. apply Rmult_integral in H. destruct H as [H|H]; [apply touch_end; assumption|].
  apply touch_swap. apply touch_end; [exact H|]. apply meets_swap. exact M.
Qed.
(* segments that meet and whose boxes touch in x *)
Lemma touch_box ax ay bx by_ cx cy dx dy : Rmin ax bx = Rmax cx dx -> meets ax ay bx by_ cx cy dx dy -> touch ax ay bx by_ cx cy dx dy.
Proof.
  intros B M. pose proof M as [s [t [S [T [E F]]]]]. unfold unit in *.
  assert (L : Rmin ax bx <= ax + s * (bx - ax)) by (unfold Rmin; destruct (Rle_dec ax bx); nra).
  assert (U : cx + t * (dx - cx) <= Rmax cx dx) by (unfold Rmax; destruct (Rle_dec cx dx); nra).
  assert (EQ : ax + s * (bx - ax) = Rmin ax bx) by lra. assert (EQ2 : cx + t * (dx - cx) = Rmax cx dx) by lra.
  destruct (Req_dec ax bx) as [V|V].
  - destruct (Req_dec cx dx) as [W|W].
    + apply touch_line; [| |exact M]; subst bx dx; unfold Rmin, Rmax, orient in *;
      repeat (match goal with H : context [if ?c then _ else _] |- _ => destruct c end); assert (ax = cx) by lra; subst; ring.
    + assert (t = 0 \/ t = 1) as [-> | ->].
      { unfold Rmax in EQ2. destruct (Rle_dec cx dx).
        - right. apply (Rmult_eq_reg_r (dx - cx)); lra.
        - left. apply (Rmult_eq_reg_r (dx - cx)); lra. }
      * right. right. left. exists s. unfold unit. repeat split; lra.
      * right. right. right. exists s. unfold unit. repeat split; lra.
  - assert (s = 0 \/ s = 1) as [-> | ->].
    { unfold Rmin in EQ. destruct (Rle_dec ax bx).
      - left. apply (Rmult_eq_reg_r (bx - ax)); lra.
      - right. apply (Rmult_eq_reg_r (bx - ax)); lra. }
    + left. exists t. unfold unit. repeat split; lra.
    + right. left. exists t. unfold unit. repeat split; lra.
Qed.
(* ... and in y: exchange the coordinates *)
Lemma touch_flip ax ay bx by_ cx cy dx dy : touch ay ax by_ bx cy cx dy dx -> touch ax ay bx by_ cx cy dx dy.
Proof.
  assert (S : forall ax ay bx by_ x y, on ay ax by_ bx y x -> on ax ay bx by_ x y) by (intros ? ? ? ? ? ? [s [U [E F]]]; exists s; auto).
  unfold touch. intros [H|[H|[H|H]]]; apply S in H; auto.
Qed.
Lemma meets_flip ax ay bx by_ cx cy dx dy : meets ax ay bx by_ cx cy dx dy -> meets ay ax by_ bx cy cx dy dx.
Proof. intros [s [t [S [T [E F]]]]]. exists s, t. auto. Qed.

(* ---------- the movement ---------- *)
Lemma cont_lin a b : continuity (fun l => a + l * b).
Proof. intros x. apply derivable_continuous_pt. reg. Qed.
Lemma cont_min f g : continuity f -> continuity g -> continuity (fun l => Rmin (f l) (g l)).
Proof.
  intros F G.
  assert (E : forall l, Rmin (f l) (g l) = (f l + g l - Rabs (f l - g l)) * / 2).
  { intros l. unfold Rmin, Rabs. destruct (Rle_dec (f l) (g l)), (Rcase_abs (f l - g l)); lra. }
  assert (C : continuity (fun l => (f l + g l - Rabs (f l - g l)) * / 2)).
  { apply continuity_mult; [|intros x; apply continuity_pt_const; intros ? ?; reflexivity].
    apply continuity_minus; [apply continuity_plus; assumption|].
    apply (continuity_comp (fun l => f l - g l) Rabs); [apply continuity_minus; assumption|exact Rcontinuity_abs]. }
  intros x. specialize (C x). unfold continuity_pt, continue_in, limit1_in, limit_in in *. intros eps H. destruct (C eps H) as [d [D1 D2]].
  exists d. split; [exact D1|]. intros y Y. specialize (D2 y Y). rewrite <- !E in D2. exact D2.
Qed.
Lemma cont_max f g : continuity f -> continuity g -> continuity (fun l => Rmax (f l) (g l)).
Proof.
  intros F G.
  assert (E : forall l, Rmax (f l) (g l) = (f l + g l + Rabs (f l - g l)) * / 2).
  { intros l. unfold Rmax, Rabs. destruct (Rle_dec (f l) (g l)), (Rcase_abs (f l - g l)); lra. }
  assert (C : continuity (fun l => (f l + g l + Rabs (f l - g l)) * / 2)).
  { apply continuity_mult; [|intros x; apply continuity_pt_const; intros ? ?; reflexivity].
    apply continuity_plus; [apply continuity_plus; assumption|].
    apply (continuity_comp (fun l => f l - g l) Rabs); [apply continuity_minus; assumption|exact Rcontinuity_abs]. }
  intros x. specialize (C x). unfold continuity_pt, continue_in, limit1_in, limit_in in *. intros eps H. destruct (C eps H) as [d [D1 D2]].
  exists d. split; [exact D1|]. intros y Y. specialize (D2 y Y). rewrite <- !E in D2. exact D2.
Qed.

Section movement.
  (* the ends at time 0 and how far they move until time 1 *)
  Variables ax ay bx by_ cx cy dx dy : R.
  Variables pax pay pbx pby pcx pcy pdx pdy : R.
  Let A l := ax + l * pax. Let A' l := ay + l * pay.
  Let B l := bx + l * pbx. Let B' l := by_ + l * pby.
  Let C l := cx + l * pcx. Let C' l := cy + l * pcy.
  Let D l := dx + l * pdx. Let D' l := dy + l * pdy.
  Let f1 l := - (orient (C l) (C' l) (D l) (D' l) (A l) (A' l) * orient (C l) (C' l) (D l) (D' l) (B l) (B' l)).
  Let f2 l := - (orient (A l) (A' l) (B l) (B' l) (C l) (C' l) * orient (A l) (A' l) (B l) (B' l) (D l) (D' l)).
  Let f3 l := Rmax (C l) (D l) - Rmin (A l) (B l).
  Let f4 l := Rmax (A l) (B l) - Rmin (C l) (D l).
  Let f5 l := Rmax (C' l) (D' l) - Rmin (A' l) (B' l).
  Let f6 l := Rmax (A' l) (B' l) - Rmin (C' l) (D' l).
  Let m l := Rmin (Rmin (f1 l) (f2 l)) (Rmin (Rmin (f3 l) (f4 l)) (Rmin (f5 l) (f6 l))).

  Lemma m_cont : continuity m.
  Proof.
    assert (O : forall u u' v v' w w', continuity u -> continuity u' -> continuity v -> continuity v' -> continuity w -> continuity w' ->
      continuity (fun l => orient (u l) (u' l) (v l) (v' l) (w l) (w' l))).
    { intros u u' v v' w w' H1 H2 H3 H4 H5 H6. unfold orient. apply continuity_minus; apply continuity_mult; apply continuity_minus; assumption. }
    unfold m. repeat apply cont_min; unfold f1, f2, f3, f4, f5, f6.
    1,2: apply continuity_opp; apply continuity_mult; apply O; apply cont_lin.
    all: apply continuity_minus; [apply cont_max|apply cont_min]; apply cont_lin.
  Qed.
  Lemma m_parts l : (0 <= m l -> 0 <= f1 l /\ 0 <= f2 l /\ 0 <= f3 l /\ 0 <= f4 l /\ 0 <= f5 l /\ 0 <= f6 l) /\
    (m l = 0 -> f1 l = 0 \/ f2 l = 0 \/ f3 l = 0 \/ f4 l = 0 \/ f5 l = 0 \/ f6 l = 0) /\
    (0 < f1 l -> 0 < f2 l -> 0 < f3 l -> 0 < f4 l -> 0 < f5 l -> 0 < f6 l -> 0 < m l).
  Proof.
    unfold m.
    assert (M : forall a b, (0 <= Rmin a b -> 0 <= a /\ 0 <= b) /\ (Rmin a b = 0 -> a = 0 \/ b = 0) /\ (0 < a -> 0 < b -> 0 < Rmin a b)).
    { intros a b. unfold Rmin. destruct (Rle_dec a b); repeat split; intros; lra. }
    destruct (M (Rmin (f1 l) (f2 l)) (Rmin (Rmin (f3 l) (f4 l)) (Rmin (f5 l) (f6 l)))) as [A1 [B1 C1]].
    destruct (M (f1 l) (f2 l)) as [A2 [B2 C2]]. destruct (M (Rmin (f3 l) (f4 l)) (Rmin (f5 l) (f6 l))) as [A3 [B3 C3]].
    destruct (M (f3 l) (f4 l)) as [A4 [B4 C4]]. destruct (M (f5 l) (f6 l)) as [A5 [B5 C5]].
    clear M. split; [|split].
    - intros H. apply A1 in H. destruct H as [H K]. apply A2 in H. apply A3 in K. destruct H, K as [K1 K2]. apply A4 in K1. apply A5 in K2. destruct K1, K2. auto 7.
    - intros H. apply B1 in H. destruct H as [H|H]; [apply B2 in H; destruct H; auto|]. apply B3 in H. destruct H as [H|H]; [apply B4 in H|apply B5 in H]; destruct H; auto 6.
    - intros. apply C1; [apply C2; assumption|]. apply C3; [apply C4|apply C5]; assumption.
  Qed.
  Lemma m_meets l : 0 <= m l -> meets (A l) (A' l) (B l) (B' l) (C l) (C' l) (D l) (D' l).
  Proof.
    intros H. destruct (m_parts l) as [P _]. destruct (P H) as [P1 [P2 [P3 [P4 [P5 P6]]]]]. unfold f1, f2, f3, f4, f5, f6 in *.
    apply straddle; lra.
  Qed.
  Lemma m_touch l : m l = 0 -> touch (A l) (A' l) (B l) (B' l) (C l) (C' l) (D l) (D' l).
  Proof.
    intros H. assert (M : meets (A l) (A' l) (B l) (B' l) (C l) (C' l) (D l) (D' l)) by (apply m_meets; lra).
    destruct (m_parts l) as [_ [P _]]. destruct (P H) as [P1|[P1|[P1|[P1|[P1|P1]]]]]; unfold f1, f2, f3, f4, f5, f6 in P1.
    - apply touch_product; [lra|exact M].
    - apply touch_sym. apply touch_product; [lra|apply meets_sym; exact M].
    - apply touch_box; [lra|exact M].
    - apply touch_sym. apply touch_box; [lra|apply meets_sym; exact M].
    - apply touch_flip. apply touch_box; [lra|apply meets_flip; exact M].
    - apply touch_flip. apply touch_sym. apply touch_box; [lra|apply meets_sym; apply meets_flip; exact M].
  Qed.
  Theorem movement :
    orient cx cy dx dy ax ay * orient cx cy dx dy bx by_ < 0 -> orient ax ay bx by_ cx cy * orient ax ay bx by_ dx dy < 0 ->
    meets (A 1) (A' 1) (B 1) (B' 1) (C 1) (C' 1) (D 1) (D' 1) \/
    exists l, unit l /\ touch (A l) (A' l) (B l) (B' l) (C l) (C' l) (D l) (D' l).
  Proof.
    intros H K.
    assert (M0 : 0 < m 0).
    { assert (E : A 0 = ax /\ A' 0 = ay /\ B 0 = bx /\ B' 0 = by_ /\ C 0 = cx /\ C' 0 = cy /\ D 0 = dx /\ D' 0 = dy) by (unfold A, A', B, B', C, C', D, D'; repeat split; ring).
      destruct E as [E1 [E2 [E3 [E4 [E5 [E6 [E7 E8]]]]]]].
      destruct (m_parts 0) as [_ [_ P]]. unfold f1, f2, f3, f4, f5, f6 in P. rewrite E1, E2, E3, E4, E5, E6, E7, E8 in P.
      assert (BX : forall ax ay bx by_ cx cy dx dy, orient cx cy dx dy ax ay * orient cx cy dx dy bx by_ < 0 -> orient ax ay bx by_ cx cy * orient ax ay bx by_ dx dy < 0 ->
        0 < Rmax cx dx - Rmin ax bx).
      { clear. intros ax ay bx by_ cx cy dx dy H K. destruct (Rle_or_lt (Rmax cx dx - Rmin ax bx) 0) as [L|L]; [exfalso|exact L].
        assert (S : meets ax ay bx by_ cx cy dx dy).
        { set (o1 := orient cx cy dx dy ax ay) in *. set (o2 := orient cx cy dx dy bx by_) in *.
          set (o3 := orient ax ay bx by_ cx cy) in *. set (o4 := orient ax ay bx by_ dx dy) in *.
          assert (D : o1 - o2 = o4 - o3) by (unfold o1, o2, o3, o4, orient; ring).
          assert (N1 : o1 - o2 <> 0) by nra.
          exists (o1 / (o1 - o2)), (o3 / (o3 - o4)). split; [apply ratio_unit; lra|]. split; [apply ratio_unit; [lra|lra]|].
          replace (o3 - o4) with (- (o1 - o2)) in * by lra.
          assert (J1 : (ax - cx) * (o1 - o2) + o1 * (bx - ax) + o3 * (dx - cx) = 0) by (unfold o1, o2, o3, orient; ring).
          assert (J2 : (ay - cy) * (o1 - o2) + o1 * (by_ - ay) + o3 * (dy - cy) = 0) by (unfold o1, o2, o3, orient; ring).
          clearbody o1 o2 o3 o4. split.
          + apply (Rmult_eq_reg_r (o1 - o2)); [|exact N1].
            replace ((ax + o1 / (o1 - o2) * (bx - ax)) * (o1 - o2)) with (ax * (o1 - o2) + o1 * (bx - ax)) by (field; exact N1).
            replace ((cx + o3 / - (o1 - o2) * (dx - cx)) * (o1 - o2)) with (cx * (o1 - o2) - o3 * (dx - cx)) by (field; exact N1). lra.
          + apply (Rmult_eq_reg_r (o1 - o2)); [|exact N1].
            replace ((ay + o1 / (o1 - o2) * (by_ - ay)) * (o1 - o2)) with (ay * (o1 - o2) + o1 * (by_ - ay)) by (field; exact N1).
            replace ((cy + o3 / - (o1 - o2) * (dy - cy)) * (o1 - o2)) with (cy * (o1 - o2) - o3 * (dy - cy)) by (field; exact N1). lra. }
        assert (EQ : Rmin ax bx = Rmax cx dx).
        { destruct S as [s [t [[S1 S2] [[T1 T2] [E F]]]]].
          assert (Rmin ax bx <= ax + s * (bx - ax)) by (unfold Rmin; destruct (Rle_dec ax bx); nra).
          assert (cx + t * (dx - cx) <= Rmax cx dx) by (unfold Rmax; destruct (Rle_dec cx dx); nra). lra. }
        assert (Z : forall a b c d x y, on a b c d x y -> orient a b c d x y = 0).
        { intros a b c d x y [s [_ [<- <-]]]. unfold orient. ring. }
        destruct (touch_box _ _ _ _ _ _ _ _ EQ S) as [T|[T|[T|T]]]; apply Z in T; rewrite T in *; lra. }
      assert (FL : forall a b c d x y, orient b a d c y x = - orient a b c d x y) by (intros; unfold orient; ring).
      apply P; try lra.
      - exact (BX _ _ _ _ _ _ _ _ H K).
      - exact (BX _ _ _ _ _ _ _ _ K H).
      - apply (BX ay ax by_ bx cy cx dy dx); [rewrite (FL cx cy dx dy ax ay), (FL cx cy dx dy bx by_)|rewrite (FL ax ay bx by_ cx cy), (FL ax ay bx by_ dx dy)]; lra.
      - apply (BX cy cx dy dx ay ax by_ bx); [rewrite (FL ax ay bx by_ cx cy), (FL ax ay bx by_ dx dy)|rewrite (FL cx cy dx dy ax ay), (FL cx cy dx dy bx by_)]; lra. }
    destruct (Rlt_le_dec 0 (m 1)) as [P|P]; [left; apply m_meets; lra|].
    right. destruct (IVT_cor m 0 1 m_cont) as [l [L1 L2]]; [lra|nra|]. exists l. split; [exact L1|]. apply m_touch. exact L2.
  Qed.
End movement.
