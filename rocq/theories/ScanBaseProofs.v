(* scanline_base: intersects and intersects_grid are exact. *)
From Verif Require Import Base Units Outcome Scan90Spec Poly90Spec Poly90Model Poly90Proofs.
From Verif Require Import Set90Spec Set90Model GeoSpec IvlModel IvlProofs RectModel RectProofs SegModel SegProofs PolySpec PolyModel PolyEdge ScanBaseModel ScanBaseOab.
From Verif Require Import SnapMove SnapNode SnapModel SnapChain.
From Coq Require Import Reals Lra Psatz.
Local Open Scope R_scope.

Lemma rorient_side u v w : rorient u v w = IZR (side (mk_seg u v) w).
Proof. unfold rorient, orient, side, cross. cbn [s_low s_high]. rewrite minus_IZR, !mult_IZR, !minus_IZR. ring. Qed.
Lemma rcross_cross s t : rcross s t = IZR (cross s t).
Proof. unfold rcross, cross. rewrite minus_IZR, !mult_IZR, !minus_IZR. ring. Qed.
Lemma ron_low u v : ron u v (IZR (px u)) (IZR (py u)).
Proof. exists 0. unfold unit. repeat split; lra. Qed.
Lemma ron_high u v : ron u v (IZR (px v)) (IZR (py v)).
Proof. exists 1. unfold unit. repeat split; lra. Qed.
Lemma ron_swap u v x y : ron u v x y -> ron v u x y.
Proof. intros [t [T [E F]]]. exists (1 - t). unfold unit in *. repeat split; lra. Qed.
Lemma on_orient a b c d x y : on a b c d x y -> orient a b c d x y = 0.
Proof. intros [t [_ [<- <-]]]. unfold orient. ring. Qed.
Lemma ron_box u v x y : ron u v x y -> Rmin (IZR (px u)) (IZR (px v)) <= x <= Rmax (IZR (px u)) (IZR (px v)) /\ Rmin (IZR (py u)) (IZR (py v)) <= y <= Rmax (IZR (py u)) (IZR (py v)).
Proof.
  assert (G : forall a b t, unit t -> Rmin a b <= a + t * (b - a) <= Rmax a b).
  { unfold unit. intros a b t T. unfold Rmin, Rmax. destruct (Rle_dec a b); split; nra. }
  intros [t [T [<- <-]]]. split; apply G; exact T.
Qed.
(* on the line and in the box of the segment *)
Lemma line_on u v x y : u <> v -> orient (IZR (px u)) (IZR (py u)) (IZR (px v)) (IZR (py v)) x y = 0 ->
  Rmin (IZR (px u)) (IZR (px v)) <= x <= Rmax (IZR (px u)) (IZR (px v)) -> Rmin (IZR (py u)) (IZR (py v)) <= y <= Rmax (IZR (py u)) (IZR (py v)) -> ron u v x y.
Proof.
  intros N O X Y.
  assert (N' : IZR (px u) <> IZR (px v) \/ IZR (py u) <> IZR (py v)).
  { destruct (Req_dec (IZR (px u)) (IZR (px v))); [|left; assumption]. destruct (Req_dec (IZR (py u)) (IZR (py v))); [|right; assumption]. exfalso. apply N. apply pt_eq_r; assumption. }
  destruct (on_line_r _ _ _ _ _ _ N' O) as [g [G1 G2]]. exists g. split; [|split; symmetry; assumption].
  destruct N' as [N'|N']; [apply (unit_mul _ _ g N'); rewrite <- G1; exact X|apply (unit_mul _ _ g N'); rewrite <- G2; exact Y].
Qed.
Lemma Rmin_IZR a b : Rmin (IZR a) (IZR b) = IZR (Z.min a b).
Proof. unfold Rmin. destruct (Rle_dec (IZR a) (IZR b)) as [H|H]; [apply le_IZR in H; rewrite Z.min_l by exact H; reflexivity|]. rewrite Z.min_r; [reflexivity|]. apply Z.lt_le_incl, Z.nle_gt. intros K. apply H. apply IZR_le. exact K. Qed.
Lemma Rmax_IZR a b : Rmax (IZR a) (IZR b) = IZR (Z.max a b).
Proof. unfold Rmax. destruct (Rle_dec (IZR a) (IZR b)) as [H|H]; [apply le_IZR in H; rewrite Z.max_r by exact H; reflexivity|]. rewrite Z.max_l; [reflexivity|]. apply Z.lt_le_incl, Z.nle_gt. intros K. apply H. apply IZR_le. exact K. Qed.
Definition inbox (s : seg) (p : point) : Prop :=
  (Z.min (px (s_low s)) (px (s_high s)) <= px p <= Z.max (px (s_low s)) (px (s_high s)) /\
   Z.min (py (s_low s)) (py (s_high s)) <= py p <= Z.max (py (s_low s)) (py (s_high s)))%Z.
Lemma seg_eta s : mk_seg (s_low s) (s_high s) = s.
Proof. destruct s; reflexivity. Qed.
Lemma pt_on s p : s_low s <> s_high s -> side s p = 0%Z -> inbox s p -> ron (s_low s) (s_high s) (IZR (px p)) (IZR (py p)).
Proof.
  intros N S [[X1 X2] [Y1 Y2]]. apply line_on; [exact N| | |].
  - change (rorient (s_low s) (s_high s) p = 0). rewrite rorient_side, seg_eta, S. reflexivity.
  - rewrite Rmin_IZR, Rmax_IZR. split; apply IZR_le; assumption.
  - rewrite Rmin_IZR, Rmax_IZR. split; apply IZR_le; assumption.
Qed.
Lemma on_pt s p : ron (s_low s) (s_high s) (IZR (px p)) (IZR (py p)) -> side s p = 0%Z /\ inbox s p.
Proof.
  intros H. split.
  - apply eq_IZR. rewrite <- (seg_eta s), <- rorient_side. apply on_orient. exact H.
  - apply ron_box in H. rewrite !Rmin_IZR, !Rmax_IZR in H. destruct H as [[A B] [C D]]. apply le_IZR in A, B, C, D. unfold inbox. lia.
Qed.
Lemma contains_box s p : r_contains_pt (seg_box s) p true = true <-> inbox s p.
Proof. unfold r_contains_pt, inbox. rewrite box_x, box_y. unfold sx, sy, contains_v. cbn [lo hi]. rewrite !andb_true_iff, !Z.leb_le, !Z.geb_le. lia. Qed.
(* between, of collinear points *)
Lemma between_box s p : side s p = 0%Z -> sb_between p s = true -> s_low s <> s_high s /\ inbox s p.
Proof.
  unfold sb_between, eu_between, inbox. rewrite <- (seg_eta s) at 1. rewrite side_cross. intros S B.
  assert (G : forall a b, pt_less a b = true -> pt_less p b && pt_less a p = true -> ((px a - px p) * (py b - py p) - (py a - py p) * (px b - px p) = 0)%Z ->
    a <> b /\ ((px a <= px p <= px b /\ Z.min (py a) (py b) <= py p <= Z.max (py a) (py b)))%Z).
  { clear. intros a b L B S. apply andb_true_iff in B as [B1 B2]. apply pt_less_iff in L, B1, B2. split; [intros ->; lia|]. split; [lia|].
    destruct (Z.eq_dec (px a) (px b)) as [E|E]; [lia|]. set (X := (px p - px a)%Z) in *. set (U := (px b - px p)%Z) in *.
    assert (0 <= X)%Z by lia. assert (0 <= U)%Z by lia. assert (0 < X + U)%Z by lia.
    assert (S' : (X * (py b - py p) = U * (py p - py a))%Z) by (unfold X, U; lia).
    destruct (Z_lt_le_dec (py p) (py a)), (Z_lt_le_dec (py p) (py b)), (Z_lt_le_dec (py a) (py p)), (Z_lt_le_dec (py b) (py p)); try lia; exfalso.
    - assert (X * (py b - py p) >= 0)%Z by nia. assert (U * (py p - py a) <= 0)%Z by nia. assert (X = 0 /\ U = 0)%Z by nia. lia.
    - assert (X * (py b - py p) <= 0)%Z by nia. assert (U * (py p - py a) >= 0)%Z by nia. assert (X = 0 /\ U = 0)%Z by nia. lia. }
  destruct (pt_less (s_low s) (s_high s)) eqn:L.
  - destruct (G _ _ L B S) as [N [X Y]]. split; [exact N|]. lia.
  - destruct (pt_less (s_high s) (s_low s)) eqn:L2.
    + destruct (G _ _ L2 B ltac:(lia)) as [N [X Y]]. split; [intros E; apply N; symmetry; exact E|]. lia.
    + exfalso. assert (E := pt_less_total _ _ L L2). rewrite E in B. apply andb_true_iff in B as [B1 B2]. apply pt_less_iff in B1, B2. lia.
Qed.
Lemma box_between s p : p <> s_low s -> p <> s_high s -> side s p = 0%Z -> inbox s p -> sb_between p s = true.
Proof.
  intros N1 N2. apply pt_ne in N1, N2. unfold sb_between, eu_between, inbox. rewrite <- (seg_eta s) at 1. rewrite side_cross. intros S [X Y].
  assert (G : forall a b, (px p <> px a \/ py p <> py a)%Z -> (px p <> px b \/ py p <> py b)%Z -> pt_less a b = true -> (px a <= px p <= px b)%Z ->
     (Z.min (py a) (py b) <= py p <= Z.max (py a) (py b))%Z -> ((px a - px p) * (py b - py p) - (py a - py p) * (px b - px p) = 0)%Z -> pt_less p b && pt_less a p = true).
  { clear. intros a b N1 N2 L X Y S. apply pt_less_iff in L. apply andb_true_iff. rewrite !pt_less_iff.
    destruct (Z.eq_dec (px p) (px b)) as [E|E]; destruct (Z.eq_dec (px p) (px a)) as [E2|E2]; try lia.
    - replace (px b - px p)%Z with 0%Z in S by lia. assert (py b - py p = 0)%Z by nia. lia.
    - replace (px a - px p)%Z with 0%Z in S by lia. assert (py a - py p = 0)%Z by nia. lia. }
  destruct (pt_less (s_low s) (s_high s)) eqn:L.
  - apply G; try assumption. apply pt_less_iff in L. lia.
  - destruct (pt_less (s_high s) (s_low s)) eqn:L2.
    + apply G; try assumption; [apply pt_less_iff in L2; lia|lia|lia].
    + exfalso. assert (E := pt_less_total _ _ L L2). rewrite E in *. destruct N1; lia.
Qed.

Lemma up_side_zero s p : up_side s p = 0%Z <-> side s p = 0%Z.
Proof. unfold up_side. destruct (pt_less (s_high s) (s_low s)); lia. Qed.
Lemma up_side_mul s p q : (up_side s p * up_side s q = side s p * side s q)%Z.
Proof. unfold up_side. destruct (pt_less (s_high s) (s_low s)); lia. Qed.
Lemma side_mul_r s p q : IZR (side s p * side s q) = rorient (s_low s) (s_high s) p * rorient (s_low s) (s_high s) q.
Proof. rewrite mult_IZR, !rorient_side, seg_eta. reflexivity. Qed.

(* ---------- intersects ---------- *)
Definition common (s1 s2 : seg) (x y : R) : Prop := ron (s_low s1) (s_high s1) x y /\ ron (s_low s2) (s_high s2) x y.
Lemma oab_on p s : pt_int p -> seg_int s -> (sb_oab p s =? 0)%Z && sb_between p s = true -> ron (s_low s) (s_high s) (IZR (px p)) (IZR (py p)).
Proof.
  intros P S H. apply andb_true_iff in H as [H B]. apply Z.eqb_eq in H. rewrite sb_oab_eq in H by assumption.
  assert (H0 : side s p = 0%Z) by (apply up_side_zero; lia). destruct (between_box s p H0 B). apply pt_on; assumption.
Qed.
Lemma open_boxes s1 s2 : r_intersects (seg_box s1) (seg_box s2) false = true <->
  (Z.min (px (s_low s1)) (px (s_high s1)) < Z.max (px (s_low s2)) (px (s_high s2)) /\ Z.min (px (s_low s2)) (px (s_high s2)) < Z.max (px (s_low s1)) (px (s_high s1)) /\
   Z.min (py (s_low s1)) (py (s_high s1)) < Z.max (py (s_low s2)) (py (s_high s2)) /\ Z.min (py (s_low s2)) (py (s_high s2)) < Z.max (py (s_low s1)) (py (s_high s1)))%Z.
Proof. unfold r_intersects. rewrite !box_x, !box_y. unfold sx, sy, intersects_i. cbn [lo hi]. rewrite !andb_true_iff, !Z.ltb_lt, !Z.gtb_lt. lia. Qed.
Lemma sgn_opp_le a b : Z.sgn a <> Z.sgn b -> (a * b <= 0)%Z.
Proof. intros H. destruct (Z.sgn_spec a) as [[A A']|[[A A']|[A A']]], (Z.sgn_spec b) as [[B B']|[[B B']|[B B']]]; try nia; exfalso; lia. Qed.
Theorem intersects_sound s1 s2 : seg_int s1 -> seg_int s2 -> sb_intersects s1 s2 = true -> exists x y, common s1 s2 x y.
Proof.
  intros I1 I2. pose proof I1 as [IL1 IH1]. pose proof I2 as [IL2 IH2]. unfold sb_intersects.
  destruct (r_intersects (seg_box s1) (seg_box s2) false) eqn:B.
  - destruct (pt_eqb (s_low s1) (s_low s2)) eqn:E1.
    { apply pt_eqb_iff in E1. intros _. exists (IZR (px (s_low s1))), (IZR (py (s_low s1))). split; [apply ron_low|rewrite E1; apply ron_low]. }
    destruct (pt_eqb (s_low s1) (s_high s2)) eqn:E2.
    { apply pt_eqb_iff in E2. intros _. exists (IZR (px (s_low s1))), (IZR (py (s_low s1))). split; [apply ron_low|rewrite E2; apply ron_high]. }
    destruct (pt_eqb (s_high s1) (s_low s2)) eqn:E3.
    { apply pt_eqb_iff in E3. intros _. exists (IZR (px (s_high s1))), (IZR (py (s_high s1))). split; [apply ron_high|rewrite E3; apply ron_low]. }
    destruct (pt_eqb (s_high s1) (s_high s2)) eqn:E4.
    { apply pt_eqb_iff in E4. intros _. exists (IZR (px (s_high s1))), (IZR (py (s_high s1))). split; [apply ron_high|rewrite E4; apply ron_high]. }
    cbv zeta.
    destruct ((sb_oab (s_low s1) s2 =? 0)%Z && sb_between (s_low s1) s2) eqn:F1.
    { intros _. exists (IZR (px (s_low s1))), (IZR (py (s_low s1))). split; [apply ron_low|apply oab_on; assumption]. }
    destruct ((sb_oab (s_high s1) s2 =? 0)%Z && sb_between (s_high s1) s2) eqn:F2.
    { intros _. exists (IZR (px (s_high s1))), (IZR (py (s_high s1))). split; [apply ron_high|apply oab_on; assumption]. }
    destruct ((sb_oab (s_low s1) s2 =? sb_oab (s_high s1) s2)%Z && negb (sb_oab (s_low s1) s2 =? 0)%Z) eqn:F3; [discriminate|].
    destruct ((sb_oab (s_low s2) s1 =? 0)%Z && sb_between (s_low s2) s1) eqn:F4.
    { intros _. exists (IZR (px (s_low s2))), (IZR (py (s_low s2))). split; [apply oab_on; assumption|apply ron_low]. }
    destruct ((sb_oab (s_high s2) s1 =? 0)%Z && sb_between (s_high s2) s1) eqn:F5.
    { intros _. exists (IZR (px (s_high s2))), (IZR (py (s_high s2))). split; [apply oab_on; assumption|apply ron_high]. }
    destruct (sb_oab (s_low s2) s1 =? sb_oab (s_high s2) s1)%Z eqn:F6; [discriminate|]. intros _.
    rewrite !sb_oab_eq in F3, F6 by assumption. apply Z.eqb_neq in F6. apply sgn_opp_le in F6. rewrite up_side_mul in F6.
    assert (F3' : (side s2 (s_low s1) * side s2 (s_high s1) <= 0)%Z).
    { rewrite <- up_side_mul. apply andb_false_iff in F3 as [F3|F3]; [apply sgn_opp_le; apply Z.eqb_neq; exact F3|].
      apply negb_false_iff, Z.eqb_eq in F3. assert (Z0 : up_side s2 (s_low s1) = 0%Z) by lia. rewrite Z0. lia. }
    apply IZR_le in F6. apply IZR_le in F3'. rewrite side_mul_r in F6, F3'.
    apply open_boxes in B. destruct B as [B1 [B2 [B3 B4]]]. apply IZR_lt in B1, B2, B3, B4. rewrite <- !Rmin_IZR, <- !Rmax_IZR in *.
    assert (M := straddle _ _ _ _ _ _ _ _ F3' F6 (Rlt_le _ _ B1) (Rlt_le _ _ B2) (Rlt_le _ _ B3) (Rlt_le _ _ B4)).
    destruct M as [a [b [A [B' [E F]]]]]. eexists _, _. split; [exists a; split; [exact A|split; reflexivity]|exists b; split; [exact B'|split; symmetry; assumption]].
  - (* on one axis-parallel line *)
    rewrite !box_x, !box_y. unfold sx, sy, sb_vertical, sb_horizontal, intersects_i. cbn [lo hi].
    assert (G : forall (p q r t : Z) (f : Z -> point), (Z.min p q < Z.max r t)%Z -> (Z.max p q > Z.min r t)%Z ->
       (forall p q m, (Z.min p q <= m <= Z.max p q)%Z -> ron (f p) (f q) (IZR (px (f m))) (IZR (py (f m)))) ->
       exists x y, ron (f p) (f q) x y /\ ron (f r) (f t) x y).
    { intros p q r t f H K R. exists (IZR (px (f (Z.max (Z.min p q) (Z.min r t))))), (IZR (py (f (Z.max (Z.min p q) (Z.min r t))))). split; apply R; lia. }
    destruct ((px (s_low s1) =? px (s_high s1))%Z && (px (s_low s2) =? px (s_high s2))%Z && (px (s_low s1) =? px (s_low s2))%Z) eqn:V.
    + apply andb_true_iff in V as [V V3]. apply andb_true_iff in V as [V1 V2]. apply Z.eqb_eq in V1, V2, V3. intros H.
      apply andb_true_iff in H as [H _]. apply andb_true_iff in H as [H1 H2]. apply Z.ltb_lt in H1. apply Z.gtb_lt in H2. apply Z.lt_gt in H2.
      destruct (G _ _ _ _ (fun m => mk_pt (px (s_low s1)) m) H1 H2) as [x [y [A C]]].
      { intros p q m M. destruct (Z.eq_dec p q) as [E|E]; [assert (m = p) by lia; subst; apply ron_low|].
        apply line_on; cbn [px py]; [intros F; apply E; congruence|unfold orient; ring|rewrite Rmin_left, Rmax_left by lra; lra|].
        rewrite Rmin_IZR, Rmax_IZR. split; apply IZR_le; lia. }
      exists x, y. unfold common. destruct s1 as [[a b] [c d]], s2 as [[e f] [g h]]. cbn [s_low s_high px py] in *. subst. split; assumption.
    + destruct ((py (s_low s1) =? py (s_high s1))%Z && (py (s_low s2) =? py (s_high s2))%Z && (py (s_low s1) =? py (s_low s2))%Z) eqn:W; [|discriminate].
      apply andb_true_iff in W as [W V3]. apply andb_true_iff in W as [V1 V2]. apply Z.eqb_eq in V1, V2, V3. intros H.
      apply andb_true_iff in H as [H _]. apply andb_true_iff in H as [H1 H2]. apply Z.ltb_lt in H1. apply Z.gtb_lt in H2. apply Z.lt_gt in H2.
      destruct (G _ _ _ _ (fun m => mk_pt m (py (s_low s1))) H1 H2) as [x [y [A C]]].
      { intros p q m M. destruct (Z.eq_dec p q) as [E|E]; [assert (m = p) by lia; subst; apply ron_low|].
        apply line_on; cbn [px py]; [intros F; apply E; congruence|unfold orient; ring| |rewrite Rmin_left, Rmax_left by lra; lra].
        rewrite Rmin_IZR, Rmax_IZR. split; apply IZR_le; lia. }
      exists x, y. unfold common. destruct s1 as [[a b] [c d]], s2 as [[e f] [g h]]. cbn [s_low s_high px py] in *. subst. split; assumption.
Qed.

(* two segments that are not parallel have one common point at most *)
Lemma common_unique s1 s2 x y x' y' : rcross s1 s2 <> 0 -> common s1 s2 x y -> common s1 s2 x' y' -> x = x' /\ y = y'.
Proof.
  unfold rcross. intros N [[a [_ [A1 A2]]] [b [_ [B1 B2]]]] [[c [_ [C1 C2]]] [d [_ [D1 D2]]]].
  set (X := IZR (px (s_high s1)) - IZR (px (s_low s1))) in *. set (Y := IZR (py (s_high s1)) - IZR (py (s_low s1))) in *.
  set (U := IZR (px (s_high s2)) - IZR (px (s_low s2))) in *. set (V := IZR (py (s_high s2)) - IZR (py (s_low s2))) in *.
  clearbody X Y U V. assert (E1 : (a - c) * X = (b - d) * U) by lra. assert (E2 : (a - c) * Y = (b - d) * V) by lra.
  assert (E : (a - c) * (X * V - Y * U) = 0).
  { replace ((a - c) * (X * V - Y * U)) with ((a - c) * X * V - (a - c) * Y * U) by ring. rewrite E1, E2. ring. }
  apply Rmult_integral in E. destruct E as [E|E]; [|contradiction]. assert (a = c) by lra. subst c. split; lra.
Qed.
Definition seg_end_r (s : seg) (x y : R) : Prop := is_pt (s_low s) x y \/ is_pt (s_high s) x y.
(* strictly inside *)
Lemma inner_param s x y : ron (s_low s) (s_high s) x y -> ~ seg_end_r s x y -> exists t, 0 < t < 1 /\ x = at_x s t /\ y = at_y s t.
Proof.
  intros [t [T [E F]]] N. exists t. unfold at_x, at_y. unfold unit in T. split; [|split; symmetry; assumption].
  destruct (Req_dec t 0) as [Z0|Z0]; [exfalso; apply N; left; subst t; split; lra|].
  destruct (Req_dec t 1) as [Z1|Z1]; [exfalso; apply N; right; subst t; split; lra|]. lra.
Qed.
Lemma inner_open a b t : 0 < t < 1 -> IZR a + t * (IZR b - IZR a) = IZR a /\ a = b \/ IZR (Z.min a b) < IZR a + t * (IZR b - IZR a) < IZR (Z.max a b).
Proof.
  intros T. destruct (Z.lt_trichotomy a b) as [H|[H|H]].
  - right. rewrite Z.min_l, Z.max_r by lia. apply IZR_lt in H. split; nra.
  - left. subst. split; [ring|reflexivity].
  - right. rewrite Z.min_r, Z.max_l by lia. apply IZR_lt in H. split; nra.
Qed.
Theorem intersects_complete s1 s2 x y : seg_int s1 -> seg_int s2 -> rcross s1 s2 <> 0 -> common s1 s2 x y -> ~ seg_end_r s1 x y -> ~ seg_end_r s2 x y ->
  sb_intersects s1 s2 = true.
Proof.
  intros I1 I2 N C N1 N2. pose proof I1 as [IL1 IH1]. pose proof I2 as [IL2 IH2]. pose proof C as [C1 C2].
  destruct (inner_param s1 x y C1 N1) as [a [A [X1 Y1]]]. destruct (inner_param s2 x y C2 N2) as [b [B [X2 Y2]]].
  assert (PC : (cross s1 s2 <> 0)%Z) by (intros E; apply N; rewrite rcross_cross, E; reflexivity).
  assert (BX : r_intersects (seg_box s1) (seg_box s2) false = true).
  { apply open_boxes. unfold at_x, at_y in *. unfold cross in PC.
    destruct (inner_open (px (s_low s1)) (px (s_high s1)) a A) as [[P1 P1']|[P1 P1']];
    destruct (inner_open (px (s_low s2)) (px (s_high s2)) b B) as [[Q1 Q1']|[Q1 Q1']];
    destruct (inner_open (py (s_low s1)) (py (s_high s1)) a A) as [[R1 R1']|[R1 R1']];
    destruct (inner_open (py (s_low s2)) (py (s_high s2)) b B) as [[S1 S1']|[S1 S1']];
    try (exfalso; apply PC; rewrite ?P1', ?Q1', ?R1', ?S1'; ring);
    rewrite ?P1', ?Q1', ?R1', ?S1', ?Z.min_id, ?Z.max_id in *;
    (split; [apply lt_IZR; lra|split; [apply lt_IZR; lra|split; apply lt_IZR; lra]]). }
  unfold sb_intersects. rewrite BX.
  assert (EN : forall p, (p = s_low s1 \/ p = s_high s1) -> (p = s_low s2 \/ p = s_high s2) -> False).
  { intros p P Q. assert (CP : common s1 s2 (IZR (px p)) (IZR (py p))) by (split; [destruct P as [-> | ->]|destruct Q as [-> | ->]]; auto using ron_low, ron_high).
    destruct (common_unique _ _ _ _ _ _ N C CP) as [-> ->]. apply N1. destruct P as [-> | ->]; [left|right]; split; reflexivity. }
  assert (E1 : pt_eqb (s_low s1) (s_low s2) = false) by (apply pt_eqb_ne; intros E; apply (EN (s_low s1)); auto).
  assert (E2 : pt_eqb (s_low s1) (s_high s2) = false) by (apply pt_eqb_ne; intros E; apply (EN (s_low s1)); auto).
  assert (E3 : pt_eqb (s_high s1) (s_low s2) = false) by (apply pt_eqb_ne; intros E; apply (EN (s_high s1)); auto).
  assert (E4 : pt_eqb (s_high s1) (s_high s2) = false) by (apply pt_eqb_ne; intros E; apply (EN (s_high s1)); auto).
  rewrite E1, E2, E3, E4. cbv zeta.
  assert (OS : forall s t r p, 0 < r < 1 -> p = 1 - r -> p * rorient (s_low t) (s_high t) (s_low s) + r * rorient (s_low t) (s_high t) (s_high s) = 0 ->
    rorient (s_low t) (s_high t) (s_high s) <> rorient (s_low t) (s_high t) (s_low s) ->
    (side t (s_low s) <> 0 /\ side t (s_high s) <> 0 /\ Z.sgn (up_side t (s_low s)) <> Z.sgn (up_side t (s_high s)))%Z).
  { clear. intros s t r p R -> E D. rewrite !rorient_side, seg_eta in *.
    assert (PL : IZR (side t (s_low s)) <> 0) by (intros K; rewrite K in *; apply D; apply (Rmult_eq_reg_l r); lra).
    assert (PH : IZR (side t (s_high s)) <> 0) by (intros K; rewrite K in *; apply D; symmetry; apply (Rmult_eq_reg_l (1 - r)); lra).
    assert (M : IZR (side t (s_low s)) * IZR (side t (s_high s)) < 0).
    { set (g := IZR (side t (s_low s))) in *. set (h := IZR (side t (s_high s))) in *. clearbody g h.
      assert (r * (g * h) = - (1 - r) * (g * g)) by (replace (r * (g * h)) with (g * (r * h)) by ring; replace (r * h) with (- (1 - r) * g) by lra; ring).
      assert (0 < g * g) by nra. assert (0 < (1 - r) * (g * g)) by (apply Rmult_lt_0_compat; lra). nra. }
    rewrite <- mult_IZR in M. apply lt_IZR in M. rewrite <- up_side_mul in M.
    split; [intros K; apply PL; rewrite K; reflexivity|]. split; [intros K; apply PH; rewrite K; reflexivity|]. 
    destruct (Z.sgn_spec (up_side t (s_low s))) as [[? ?]|[[? ?]|[? ?]]], (Z.sgn_spec (up_side t (s_high s))) as [[? ?]|[[? ?]|[? ?]]]; nia. }
  assert (O1 := OS s1 s2 a (1 - a) A eq_refl). assert (O2 := OS s2 s1 b (1 - b) B eq_refl). clear OS.
  destruct O1 as [P1 [P2 P3]].
  { replace ((1 - a) * rorient (s_low s2) (s_high s2) (s_low s1) + a * rorient (s_low s2) (s_high s2) (s_high s1)) with (orient (IZR (px (s_low s2))) (IZR (py (s_low s2))) (IZR (px (s_high s2))) (IZR (py (s_high s2))) (at_x s1 a) (at_y s1 a)) by (unfold rorient, orient, at_x, at_y; ring).
    rewrite <- X1, <- Y1. apply on_orient. exact C2. }
  { intros E. apply N. replace (rcross s1 s2) with (- (rorient (s_low s2) (s_high s2) (s_high s1) - rorient (s_low s2) (s_high s2) (s_low s1))) by (unfold rcross, rorient, orient; ring). rewrite E. ring. }
  destruct O2 as [Q1 [Q2 Q3]].
  { replace ((1 - b) * rorient (s_low s1) (s_high s1) (s_low s2) + b * rorient (s_low s1) (s_high s1) (s_high s2)) with (orient (IZR (px (s_low s1))) (IZR (py (s_low s1))) (IZR (px (s_high s1))) (IZR (py (s_high s1))) (at_x s2 b) (at_y s2 b)) by (unfold rorient, orient, at_x, at_y; ring).
    rewrite <- X2, <- Y2. apply on_orient. exact C1. }
  { intros E. apply N. replace (rcross s1 s2) with (rorient (s_low s1) (s_high s1) (s_high s2) - rorient (s_low s1) (s_high s1) (s_low s2)) by (unfold rcross, rorient, orient; ring). rewrite E. ring. }
  rewrite !sb_oab_eq by assumption.
  assert (ZF : forall t p, side t p <> 0%Z -> (Z.sgn (up_side t p) =? 0)%Z = false) by (intros t p H; apply Z.eqb_neq; intros K; apply H; apply up_side_zero; lia).
  rewrite !ZF by assumption. cbn [andb]. rewrite (proj2 (Z.eqb_neq _ _) P3), (proj2 (Z.eqb_neq _ _) Q3). reflexivity.
Qed.
