(* Edges that meet at end points only are ordered from below to above. *)
From Verif Require Import Base Poly90Spec GeoSpec SnapSpec ArbSpec.
From Coq Require Import Reals Lra.
Local Open Scope R_scope.

Lemma rltb_iff x y : rltb x y = true <-> x < y.
Proof. unfold rltb. destruct (Rlt_dec x y); split; intros; try assumption; try discriminate; try reflexivity; contradiction. Qed.
Lemma rleb_iff x y : rleb x y = true <-> x <= y.
Proof. unfold rleb. destruct (Rle_dec x y); split; intros; try assumption; try discriminate; try reflexivity; contradiction. Qed.

Definition inr (s : seg) (x : R) : Prop := IZR (px (s_low s)) < x < IZR (px (s_high s)).
Definition inc (s : seg) (x : R) : Prop := IZR (px (s_low s)) <= x <= IZR (px (s_high s)).
Lemma height_between s x1 x2 t : height s (x1 + t * (x2 - x1)) = height s x1 + t * (height s x2 - height s x1).
Proof. unfold height. ring. Qed.
Lemma height_low s : height s (IZR (px (s_low s))) = IZR (py (s_low s)).
Proof. unfold height. ring. Qed.
Lemma height_high s : (px (s_low s) < px (s_high s))%Z -> height s (IZR (px (s_high s))) = IZR (py (s_high s)).
Proof. intros H. apply IZR_lt in H. unfold height. field. lra. Qed.
Lemma inr_nv s x : inr s x -> (px (s_low s) < px (s_high s))%Z.
Proof. intros [H K]. apply lt_IZR. lra. Qed.
Lemma inr_inc s x : inr s x -> inc s x.
Proof. unfold inr, inc. lra. Qed.
Lemma on_height s x : (px (s_low s) < px (s_high s))%Z -> inc s x -> on_r s x (height s x).
Proof.
  intros H [A B]. apply IZR_lt in H. exists ((x - IZR (px (s_low s))) / (IZR (px (s_high s)) - IZR (px (s_low s)))). split; [|split].
  - split; [apply Rmult_le_pos; [lra|left; apply Rinv_0_lt_compat; lra]|]. apply Rmult_le_reg_r with (IZR (px (s_high s)) - IZR (px (s_low s))); [lra|]. unfold Rdiv. rewrite Rmult_assoc, Rinv_l by lra. lra.
  - field. lra.
  - unfold height. field. lra.
Qed.
Lemma on_height_inv s x y : (px (s_low s) < px (s_high s))%Z -> on_r s x y -> inc s x /\ y = height s x.
Proof.
  intros H [t [T [-> ->]]]. apply IZR_lt in H. split; [split; nra|]. unfold height. field. lra.
Qed.
Lemma ordered_iff s : ordered s <-> (px (s_low s) < px (s_high s) \/ px (s_low s) = px (s_high s) /\ py (s_low s) < py (s_high s))%Z.
Proof. unfold ordered, lex_lt. rewrite orb_true_iff, andb_true_iff, Z.ltb_lt, Z.eqb_eq, Z.ltb_lt. reflexivity. Qed.
Lemma vertical_edge_iff s : vertical_edge s = true <-> px (s_low s) = px (s_high s).
Proof. unfold vertical_edge. apply Z.eqb_eq. Qed.
Lemma nv_lt s : ordered s -> vertical_edge s = false -> (px (s_low s) < px (s_high s))%Z.
Proof. intros O V. apply ordered_iff in O. unfold vertical_edge in V. apply Z.eqb_neq in V. lia. Qed.
(* a point between the ends of a vertical edge *)
Lemma on_vertical s y : vertical_edge s = true -> IZR (py (s_low s)) <= y <= IZR (py (s_high s)) -> on_r s (IZR (px (s_low s))) y.
Proof.
  intros V [A B]. apply vertical_edge_iff in V. destruct (Req_dec (IZR (py (s_low s))) (IZR (py (s_high s)))) as [E|N].
  - exists 0. rewrite <- V. lra.
  - exists ((y - IZR (py (s_low s))) / (IZR (py (s_high s)) - IZR (py (s_low s)))). rewrite <- V. split; [|split; [ring|field; lra]].
    split; [apply Rmult_le_pos; [lra|left; apply Rinv_0_lt_compat; lra]|]. apply Rmult_le_reg_r with (IZR (py (s_high s)) - IZR (py (s_low s))); [lra|]. unfold Rdiv. rewrite Rmult_assoc, Rinv_l by lra. lra.
Qed.
Lemma on_low s : on_r s (IZR (px (s_low s))) (IZR (py (s_low s))).
Proof. exists 0. lra. Qed.
Lemma on_high s : on_r s (IZR (px (s_high s))) (IZR (py (s_high s))).
Proof. exists 1. lra. Qed.

Section order.
  Variable E : list seg.
  Hypothesis nod : noded E.
  Hypothesis ord : forall s, In s E -> ordered s.

  Lemma same_ordered e f : In e E -> In f E -> same_seg e f -> f = e.
  Proof.
    intros He Hf [H|H]; [exact H|]. apply ord in He. apply ord in Hf. apply ordered_iff in He. apply ordered_iff in Hf. rewrite H in Hf. cbn [s_low s_high] in Hf. lia.
  Qed.
  (* the inner points of an edge belong to no other edge *)
  Lemma touch e f x : In e E -> In f E -> inr e x -> on_r f x (height e x) -> f = e.
  Proof.
    intros He Hf I O. destruct (nod e f x (height e x) He Hf (on_height e x (inr_nv _ _ I) (inr_inc _ _ I)) O) as [[[[A _]|[A _]] _]|S]; [unfold inr in I; lra|unfold inr in I; lra|].
    apply same_ordered; assumption.
  Qed.
  Lemma touch_v e f y : In e E -> In f E -> vertical_edge e = true -> IZR (py (s_low e)) < y < IZR (py (s_high e)) -> on_r f (IZR (px (s_low e))) y -> f = e.
  Proof.
    intros He Hf V I O. destruct (nod e f _ y He Hf (on_vertical e y V (conj (Rlt_le _ _ (proj1 I)) (Rlt_le _ _ (proj2 I)))) O) as [[[[_ A]|[_ A]] _]|S]; [lra|lra|].
    apply same_ordered; assumption.
  Qed.
  Lemma cross e f x : In e E -> In f E -> inr e x -> inr f x -> height e x = height f x -> f = e.
  Proof. intros He Hf I J H. apply (touch e f x He Hf I). rewrite H. apply on_height; [apply (inr_nv _ _ J)|apply inr_inc, J]. Qed.
  Lemma order_le e f x1 x2 : In e E -> In f E -> inr e x1 -> inr f x1 -> height e x1 < height f x1 -> inc e x2 -> inc f x2 -> height e x2 <= height f x2.
  Proof.
    intros He Hf I J H K L. destruct (Rle_dec (height e x2) (height f x2)) as [|N]; [assumption|]. exfalso. apply Rnot_le_lt in N.
    set (t := (height f x1 - height e x1) / ((height f x1 - height e x1) + (height e x2 - height f x2))).
    assert (T : 0 < t < 1).
    { unfold t. split; [apply Rmult_lt_0_compat; [lra|apply Rinv_0_lt_compat; lra]|]. apply Rmult_lt_reg_r with ((height f x1 - height e x1) + (height e x2 - height f x2)); [lra|]. unfold Rdiv. rewrite Rmult_assoc, Rinv_l by lra. lra. }
    assert (Q : height e (x1 + t * (x2 - x1)) = height f (x1 + t * (x2 - x1))).
    { rewrite !height_between. unfold t. field. lra. }
    assert (f = e) as ->.
    { apply (cross e f (x1 + t * (x2 - x1)) He Hf); [unfold inr, inc in *; split; nra|unfold inr, inc in *; split; nra|exact Q]. }
    lra.
  Qed.
  Lemma order_lt e f x1 x2 : In e E -> In f E -> inr e x1 -> inr f x1 -> height e x1 < height f x1 -> inr e x2 -> inc f x2 -> height e x2 < height f x2.
  Proof.
    intros He Hf I J H K L. destruct (order_le e f x1 x2 He Hf I J H (inr_inc _ _ K) L) as [A|A]; [exact A|]. exfalso.
    assert (f = e) as -> by (apply (touch e f x2 He Hf K); rewrite A; apply on_height; [apply (inr_nv _ _ J)|exact L]). lra.
  Qed.
  Lemma order_lt' e f x1 x2 : In e E -> In f E -> inr e x1 -> inr f x1 -> height e x1 < height f x1 -> inc e x2 -> inr f x2 -> height e x2 < height f x2.
  Proof.
    intros He Hf I J H K L. destruct (order_le e f x1 x2 He Hf I J H K (inr_inc _ _ L)) as [A|A]; [exact A|]. exfalso.
    assert (e = f) as -> by (apply (touch f e x2 Hf He L); rewrite <- A; apply on_height; [apply (inr_nv _ _ I)|exact K]). lra.
  Qed.

  (* e is below f *)
  Definition lte (e f : seg) : Prop := exists x, inr e x /\ inr f x /\ height e x < height f x.
  Lemma lte_at e f x : In e E -> In f E -> lte e f -> inr e x -> inr f x -> height e x < height f x.
  Proof. intros He Hf [x1 [A [B C]]] I J. apply (order_lt e f x1 x); try assumption. apply inr_inc, J. Qed.
  Lemma lte_le e f x : In e E -> In f E -> lte e f -> inc e x -> inc f x -> height e x <= height f x.
  Proof. intros He Hf [x1 [A [B C]]] I J. apply (order_le e f x1 x); assumption. Qed.
  Lemma lte_irrefl e : ~ lte e e.
  Proof. intros [x H]. lra. Qed.
  Lemma lte_asym e f : In e E -> In f E -> lte e f -> ~ lte f e.
  Proof. intros He Hf H [x [A [B C]]]. pose proof (lte_at e f x He Hf H B A). lra. Qed.
  Lemma lte_total e f x : In e E -> In f E -> inr e x -> inr f x -> f = e \/ lte e f \/ lte f e.
  Proof.
    intros He Hf I J. destruct (Rtotal_order (height e x) (height f x)) as [H|[H|H]].
    - right. left. exists x. auto.
    - left. apply (cross e f x); assumption.
    - right. right. exists x. auto.
  Qed.
  Lemma lte_trans e f g x : In e E -> In f E -> In g E -> inr e x -> inr f x -> inr g x -> lte e f -> lte f g -> lte e g.
  Proof.
    intros He Hf Hg A B C H K. exists x. split; [exact A|]. split; [exact C|]. pose proof (lte_at e f x He Hf H A B). pose proof (lte_at f g x Hf Hg K B C). lra.
  Qed.
End order.
