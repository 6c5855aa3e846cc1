(* The winding number of a curve does not change along a segment that misses it. *)
From Verif Require Import Base Units Poly90Spec GeoSpec PolySpec PolyCycle SnapSpec ArbSpec ArbOrder.
From Coq Require Import Reals Lra.
Local Open Scope R_scope.

Definition on_ring (l : list point) (x y : R) : Prop := exists e, In e (cyc_edges l) /\ on_r (mk_seg (fst e) (snd e)) x y.

Ltac rb := unfold rltb, rleb in *;
  repeat match goal with
  | |- context [Rlt_dec ?a ?b] => destruct (Rlt_dec a b)
  | |- context [Rle_dec ?a ?b] => destruct (Rle_dec a b)
  end; cbn [andb]; try reflexivity; try (exfalso; lra).

Lemma on_swap a b x y : on_r (mk_seg a b) x y -> on_r (mk_seg b a) x y.
Proof.
  intros [t [T [H1 H2]]]. cbn [s_low s_high] in *. exists (1 - t). cbn [s_low s_high]. split; [lra|]. split; lra.
Qed.
Lemma crossing_swap x y a b : crossing_r x y (a, b) = (- crossing_r x y (b, a))%Z.
Proof. unfold crossing_r. rb. Qed.
Lemma crossing_vert x y a b : px a = px b -> crossing_r x y (a, b) = 0%Z.
Proof. intros H. unfold crossing_r. rewrite H. rb. Qed.
Lemma crossing_right x y a b : (px a < px b)%Z -> crossing_r x y (a, b) =
  (if rleb (IZR (px a)) x && rltb x (IZR (px b)) && rltb (height (mk_seg a b) x) y then 1 else 0)%Z.
Proof. intros H. apply IZR_lt in H. unfold crossing_r. rb. Qed.

(* an affine function without a zero keeps its sign *)
Lemma affine_sign (D : R -> R) u v : (forall a b t, D (a + t * (b - a)) = D a + t * (D b - D a)) -> u <= v ->
  (forall w, u <= w <= v -> D w <> 0) -> (D u < 0 /\ D v < 0) \/ (0 < D u /\ 0 < D v).
Proof.
  intros A L N. pose proof (N u ltac:(lra)) as NU. pose proof (N v ltac:(lra)) as NV.
  assert (Z : forall s, 0 <= s <= 1 -> D u + s * (D v - D u) = 0 -> False).
  { intros s S E. apply (N (u + s * (v - u))); [|rewrite A; exact E]. split; [|].
    - assert (0 <= s * (v - u)) by (apply Rmult_le_pos; lra). lra.
    - assert (0 <= (1 - s) * (v - u)) by (apply Rmult_le_pos; lra). lra. }
  destruct (Rlt_dec (D u) 0) as [U|U], (Rlt_dec (D v) 0) as [V|V]; [left; lra| | |right; lra]; exfalso.
  - apply (Z (- D u / (D v - D u))); [|field; lra]. split.
    + apply Rmult_le_pos; [lra|left; apply Rinv_0_lt_compat; lra].
    + apply Rmult_le_reg_r with (D v - D u); [lra|]. unfold Rdiv. rewrite Rmult_assoc, Rinv_l by lra. lra.
  - apply (Z (D u / (D u - D v))); [|field; lra]. split.
    + apply Rmult_le_pos; [lra|left; apply Rinv_0_lt_compat; lra].
    + apply Rmult_le_reg_r with (D u - D v); [lra|]. unfold Rdiv. rewrite Rmult_assoc, Rinv_l by lra. lra.
Qed.

Section Move.
Variables (x1 y1 x2 k : R).
Let m x := y1 + (x - x1) * k.
Hypothesis X : x1 < x2.
(* the strip below the segment from (x1, m x1) to (x2, m x2) *)
Definition strip (x1 x2 y1 k : R) (v : point) : Z :=
  if rltb x1 (IZR (px v)) && rleb (IZR (px v)) x2 && rltb (IZR (py v)) (y1 + (IZR (px v) - x1) * k) then 1%Z else 0%Z.
Lemma edge_change_right a b : (px a < px b)%Z -> (forall x, x1 <= x <= x2 -> ~ on_r (mk_seg a b) x (m x)) ->
  (crossing_r x1 (m x1) (a, b) - crossing_r x2 (m x2) (a, b) = strip x1 x2 y1 k b - strip x1 x2 y1 k a)%Z.
Proof.
  intros L N. rewrite !crossing_right by exact L. unfold strip. fold (m (IZR (px a))) (m (IZR (px b))).
  assert (HL : IZR (py a) = height (mk_seg a b) (IZR (px a))) by (symmetry; apply (height_low (mk_seg a b))).
  assert (HH : IZR (py b) = height (mk_seg a b) (IZR (px b))) by (symmetry; apply (height_high (mk_seg a b)); exact L).
  rewrite HL, HH. set (h := height (mk_seg a b)) in *.
  assert (N' : forall x, x1 <= x <= x2 -> IZR (px a) <= x <= IZR (px b) -> h x - m x <> 0).
  { intros x I J E. apply (N x I). replace (m x) with (h x) by lra. apply on_height; [exact L|unfold inc; cbn [s_low s_high]; lra]. }
  apply IZR_lt in L. set (A := IZR (px a)) in *. set (B := IZR (px b)) in *. clearbody A B. clear HL HH N.
  destruct (Rlt_dec B x1) as [O|O]; [rb|]. destruct (Rlt_dec x2 A) as [O'|O']; [rb|].
  set (u := Rmax A x1). set (v := Rmin B x2).
  assert (UB : A <= u /\ x1 <= u /\ u <= B /\ u <= x2) by (unfold u, Rmax; destruct (Rle_dec A x1); lra).
  assert (VB : A <= v /\ x1 <= v /\ v <= B /\ v <= x2) by (unfold v, Rmin; destruct (Rle_dec B x2); lra).
  assert (UV : u <= v) by (unfold u, v, Rmax, Rmin; destruct (Rle_dec A x1), (Rle_dec B x2); lra).
  assert (S : (forall w, A <= w <= B -> x1 <= w <= x2 -> h w < m w) \/ (forall w, A <= w <= B -> x1 <= w <= x2 -> m w < h w)).
  { assert (W : forall w, A <= w <= B -> x1 <= w <= x2 -> u <= w <= v) by (unfold u, v, Rmax, Rmin; intros; destruct (Rle_dec A x1), (Rle_dec B x2); lra).
    assert (AF : forall p q t, h (p + t * (q - p)) - m (p + t * (q - p)) = h p - m p + t * ((h q - m q) - (h p - m p))) by (intros p q t; unfold h; rewrite height_between; unfold m; ring).
    destruct (affine_sign (fun x => h x - m x) u v AF UV) as [[S _]|[S _]]; [intros w I; apply N'; lra| |].
    - left. intros w I J. destruct (affine_sign (fun x => h x - m x) u w AF) as [G|G]; [apply W; assumption|intros z I'; apply N'; lra|lra|lra].
    - right. intros w I J. destruct (affine_sign (fun x => h x - m x) u w AF) as [G|G]; [apply W; assumption|intros z I'; apply N'; lra|lra|lra]. }
  destruct S as [S|S].
  - pose proof (S x1) as S1. pose proof (S x2) as S2. pose proof (S A) as S3. pose proof (S B) as S4. clear S N'.
    unfold rltb, rleb. destruct (Rle_dec A x1), (Rlt_dec x1 A), (Rle_dec A x2), (Rlt_dec x1 B), (Rle_dec B x2), (Rlt_dec x2 B); cbn [andb]; try (exfalso; lra);
    repeat match goal with |- context [Rlt_dec ?a ?b] => destruct (Rlt_dec a b) end; try reflexivity; exfalso;
    first [assert (h x1 < m x1) by (apply S1; lra); lra | assert (h x2 < m x2) by (apply S2; lra); lra | assert (h A < m A) by (apply S3; lra); lra | assert (h B < m B) by (apply S4; lra); lra].
  - pose proof (S x1) as S1. pose proof (S x2) as S2. pose proof (S A) as S3. pose proof (S B) as S4. clear S N'.
    unfold rltb, rleb. destruct (Rle_dec A x1), (Rlt_dec x1 A), (Rle_dec A x2), (Rlt_dec x1 B), (Rle_dec B x2), (Rlt_dec x2 B); cbn [andb]; try (exfalso; lra);
    repeat match goal with |- context [Rlt_dec ?a ?b] => destruct (Rlt_dec a b) end; try reflexivity; exfalso;
    first [assert (m x1 < h x1) by (apply S1; lra); lra | assert (m x2 < h x2) by (apply S2; lra); lra | assert (m A < h A) by (apply S3; lra); lra | assert (m B < h B) by (apply S4; lra); lra].
Qed.
Lemma edge_change a b : (forall x, x1 <= x <= x2 -> ~ on_r (mk_seg a b) x (m x)) ->
  (crossing_r x1 (m x1) (a, b) - crossing_r x2 (m x2) (a, b) = strip x1 x2 y1 k b - strip x1 x2 y1 k a)%Z.
Proof.
  intros N. destruct (Z.lt_trichotomy (px a) (px b)) as [L|[E|L]].
  - apply edge_change_right; assumption.
  - rewrite !crossing_vert by exact E. unfold strip. rewrite E. fold (m (IZR (px b))).
    destruct (rltb x1 (IZR (px b)) && rleb (IZR (px b)) x2) eqn:I; cbn [andb]; [|reflexivity].
    apply andb_true_iff in I. destruct I as [I1 I2]. apply rltb_iff in I1. apply rleb_iff in I2.
    set (M := m (IZR (px b))). set (A := IZR (py a)). set (B := IZR (py b)).
    assert (K : forall t, 0 <= t <= 1 -> A + t * (B - A) <> M).
    { intros t T Q. apply (N (IZR (px b))); [lra|]. exists t. cbn [s_low s_high]. split; [exact T|]. rewrite E. fold M A B. split; lra. }
    destruct (affine_sign (fun t => A + t * (B - A) - M) 0 1) as [G|G]; [intros; ring|lra|intros w W Z; apply (K w W); lra| |]; rb.
  - rewrite !(crossing_swap _ _ a b). pose proof (edge_change_right b a L) as H.
    rewrite Z.sub_opp_r. enough ((crossing_r x1 (m x1) (b, a) - crossing_r x2 (m x2) (b, a) = strip x1 x2 y1 k a - strip x1 x2 y1 k b)%Z) by lia.
    apply H. intros x I O. apply (N x I). apply on_swap. exact O.
Qed.
Lemma winding_right l : (forall x, x1 <= x <= x2 -> ~ on_ring l x (m x)) -> winding_r l x1 (m x1) = winding_r l x2 (m x2).
Proof.
  intros N. unfold winding_r. apply Z.sub_move_0_r. rewrite <- Z.add_opp_r, <- zsum_opp, <- zsum_add.
  rewrite (zsum_ext _ (fun e => (strip x1 x2 y1 k (snd e) - strip x1 x2 y1 k (fst e))%Z)); [apply cyc_telescope|].
  intros [a b] I. cbn [fst snd]. rewrite Z.add_opp_r. apply edge_change. intros x J O. apply (N x J). exists (a, b). split; assumption.
Qed.
End Move.
Lemma winding_up l x y1 y2 : y1 <= y2 -> (forall y, y1 <= y <= y2 -> ~ on_ring l x y) -> winding_r l x y1 = winding_r l x y2.
Proof.
  intros L N. unfold winding_r. apply zsum_ext. intros [a b] I.
  assert (K : forall a b, (In (a, b) (cyc_edges l) \/ In (b, a) (cyc_edges l)) -> (px a < px b)%Z -> crossing_r x y1 (a, b) = crossing_r x y2 (a, b)).
  { clear a b I. intros a b I H. rewrite !crossing_right by exact H. destruct (rleb (IZR (px a)) x && rltb x (IZR (px b))) eqn:S; cbn [andb]; [|reflexivity].
    apply andb_true_iff in S. destruct S as [S1 S2]. apply rleb_iff in S1. apply rltb_iff in S2. 
    assert (O : on_r (mk_seg a b) x (height (mk_seg a b) x)) by (apply on_height; [exact H|unfold inc; cbn [s_low s_high]; lra]).
    assert (J : ~ (y1 <= height (mk_seg a b) x <= y2)).
    { intros J. apply (N _ J). destruct I as [I|I]; [exists (a, b); split; assumption|exists (b, a); split; [exact I|apply on_swap; exact O]]. }
    rb. }
  destruct (Z.lt_trichotomy (px a) (px b)) as [H|[H|H]]; [apply K; auto|rewrite !crossing_vert by exact H; reflexivity|].
  rewrite !(crossing_swap _ _ a b). f_equal. apply K; auto.
Qed.
(* along any segment *)
Theorem winding_const l x1 y1 x2 y2 : (forall t, 0 <= t <= 1 -> ~ on_ring l (x1 + t * (x2 - x1)) (y1 + t * (y2 - y1))) -> winding_r l x1 y1 = winding_r l x2 y2.
Proof.
  assert (R : forall x1 y1 x2 y2, x1 < x2 -> (forall t, 0 <= t <= 1 -> ~ on_ring l (x1 + t * (x2 - x1)) (y1 + t * (y2 - y1))) -> winding_r l x1 y1 = winding_r l x2 y2).
  { clear. intros x1 y1 x2 y2 L N. set (k := (y2 - y1) / (x2 - x1)).
    pose proof (winding_right x1 y1 x2 k L l) as W. cbv beta in W.
    replace (y1 + (x1 - x1) * k) with y1 in W by ring. replace (y1 + (x2 - x1) * k) with y2 in W by (unfold k; field; lra). apply W.
    intros x I O. apply (N ((x - x1) / (x2 - x1))).
    - split; [apply Rmult_le_pos; [lra|left; apply Rinv_0_lt_compat; lra]|]. apply Rmult_le_reg_r with (x2 - x1); [lra|]. unfold Rdiv. rewrite Rmult_assoc, Rinv_l by lra. lra.
    - replace (x1 + (x - x1) / (x2 - x1) * (x2 - x1)) with x by (field; lra). replace (y1 + (x - x1) / (x2 - x1) * (y2 - y1)) with (y1 + (x - x1) * k) by (unfold k; field; lra). exact O. }
  intros N. destruct (Rtotal_order x1 x2) as [L|[E|L]].
  - apply R; assumption.
  - subst x2. assert (U : forall y1 y2, y1 <= y2 -> (forall t, 0 <= t <= 1 -> ~ on_ring l x1 (y1 + t * (y2 - y1))) -> winding_r l x1 y1 = winding_r l x1 y2).
    { clear. intros y1 y2 L N. destruct (Req_dec y1 y2) as [->|NE]; [reflexivity|]. apply winding_up; [exact L|]. intros y I O. apply (N ((y - y1) / (y2 - y1))).
      - split; [apply Rmult_le_pos; [lra|left; apply Rinv_0_lt_compat; lra]|]. apply Rmult_le_reg_r with (y2 - y1); [lra|]. unfold Rdiv. rewrite Rmult_assoc, Rinv_l by lra. lra.
      - replace (y1 + (y - y1) / (y2 - y1) * (y2 - y1)) with y by (field; lra). exact O. }
    replace (x1 - x1) with 0 in N by ring. destruct (Rle_dec y1 y2) as [L|L].
    + apply U; [exact L|]. intros t T O. apply (N t T). replace (x1 + t * 0) with x1 by ring. exact O.
    + symmetry. apply U; [lra|]. intros t T O. apply (N (1 - t)); [lra|]. replace (x1 + (1 - t) * 0) with x1 by ring. replace (y1 + (1 - t) * (y2 - y1)) with (y2 + t * (y1 - y2)) by ring. exact O.
  - symmetry. apply R; [exact L|]. intros t T O. apply (N (1 - t)); [lra|].
    replace (x1 + (1 - t) * (x2 - x1)) with (x2 + t * (x1 - x2)) by ring. replace (y1 + (1 - t) * (y2 - y1)) with (y2 + t * (y1 - y2)) by ring. exact O.
Qed.

(* ---------- where the winding number is zero ---------- *)
Lemma zsum_all0 {A : Type} (f : A -> Z) l : (forall a, In a l -> f a = 0%Z) -> zsum f l = 0%Z.
Proof. intros H. induction l as [|a l IH]; [reflexivity|]. cbn. rewrite H by (left; reflexivity). fold (zsum f l). rewrite IH; [reflexivity|]. intros b I. apply H. right. exact I. Qed.
Lemma winding_far_right l x y : (forall v, In v l -> IZR (px v) <= x) -> winding_r l x y = 0%Z.
Proof.
  intros H. apply zsum_all0. intros [a b] I. apply cyc_in in I. cbn [fst snd] in I. destruct I as [I1 I2]. apply H in I1. apply H in I2. unfold crossing_r. rb.
Qed.
Lemma winding_strict_left l x y : (forall v, In v l -> x < IZR (px v)) -> winding_r l x y = 0%Z.
Proof.
  intros H. apply zsum_all0. intros [a b] I. apply cyc_in in I. cbn [fst snd] in I. destruct I as [I1 I2]. apply H in I1. apply H in I2. unfold crossing_r. rb.
Qed.
Lemma on_between (lo hi : R) a b x y : lo <= IZR (px a) <= hi -> lo <= IZR (px b) <= hi -> on_r (mk_seg a b) x y -> lo <= x <= hi.
Proof.
  intros A B [t [T [E _]]]. cbn [s_low s_high] in E. subst x.
  assert (0 <= t * (IZR (px b) - lo)) by (apply Rmult_le_pos; lra). assert (0 <= (1 - t) * (IZR (px a) - lo)) by (apply Rmult_le_pos; lra).
  assert (0 <= t * (hi - IZR (px b))) by (apply Rmult_le_pos; lra). assert (0 <= (1 - t) * (hi - IZR (px a))) by (apply Rmult_le_pos; lra). lra.
Qed.
Lemma winding_far_left l x y : (forall v, In v l -> x <= IZR (px v)) -> ~ on_ring l x y -> winding_r l x y = 0%Z.
Proof.
  intros H N. rewrite <- (winding_const l (x - 1) y x y).
  - apply winding_strict_left. intros v I. apply H in I. lra.
  - intros t T [e [I O]]. destruct e as [a b]. cbn [fst snd] in O. pose proof (cyc_in _ _ I) as [I1 I2]. cbn [fst snd] in I1, I2. apply H in I1. apply H in I2.
    pose proof (on_between x (Rmax (IZR (px a)) (IZR (px b))) a b _ _ (conj I1 (Rmax_l _ _)) (conj I2 (Rmax_r _ _)) O) as [B _].
    assert (t = 1) by lra. subst t. apply N. exists (a, b). split; [exact I|]. cbn [fst snd]. replace x with (x - 1 + 1 * (x - (x - 1))) at 1 by ring. replace y with (y + 1 * (y - y)) by ring. exact O.
Qed.
(* a winding number that is not zero has an edge below *)
Lemma winding_hit l x y : winding_r l x y <> 0%Z -> exists y', y' < y /\ on_ring l x y'.
Proof.
  intros H. assert (K : exists e, In e (cyc_edges l) /\ crossing_r x y e <> 0%Z).
  { unfold winding_r in H. induction (cyc_edges l) as [|e c IH]; [contradiction|]. cbn in H. fold (zsum (crossing_r x y) c) in H.
    destruct (Z.eq_dec (crossing_r x y e) 0) as [E|E]; [|exists e; split; [left; reflexivity|exact E]].
    destruct IH as [f [I F]]; [lia|]. exists f. split; [right; exact I|exact F]. }
  destruct K as [[a b] [I K]].
  assert (G : forall a b, (px a < px b)%Z -> crossing_r x y (a, b) <> 0%Z -> exists y', y' < y /\ on_r (mk_seg a b) x y').
  { clear. intros a b L H. rewrite crossing_right in H by exact L. exists (height (mk_seg a b) x).
    destruct (rleb (IZR (px a)) x && rltb x (IZR (px b))) eqn:S; cbn [andb] in H; [|contradiction]. destruct (rltb (height (mk_seg a b) x) y) eqn:B; [|contradiction].
    apply andb_true_iff in S. destruct S as [S1 S2]. apply rleb_iff in S1. apply rltb_iff in S2, B. split; [exact B|]. apply on_height; [exact L|unfold inc; cbn [s_low s_high]; lra]. }
  destruct (Z.lt_trichotomy (px a) (px b)) as [L|[E|L]].
  - destruct (G a b L K) as [y' [Y O]]. exists y'. split; [exact Y|]. exists (a, b). auto.
  - exfalso. apply K. apply crossing_vert. exact E.
  - destruct (G b a L) as [y' [Y O]]; [rewrite crossing_swap in K; lia|]. exists y'. split; [exact Y|]. exists (a, b). split; [exact I|apply on_swap; exact O].
Qed.
