(* Facts about vertex data and its count function. *)
From Verif Require Import Base Scan90Spec.
From Coq Require Import Sorting.Permutation.

Lemma cnt_app V W x y : cnt (V ++ W) x y = cnt V x y + cnt W x y.
Proof. induction V as [|v V IH]; cbn [app cnt]; [reflexivity|]. rewrite IH. lia. Qed.

Lemma cnt_perm V W : Permutation V W -> forall x y, cnt V x y = cnt W x y.
Proof.
  intros H x y. induction H as [|v V W H IH|v w V|V W U H1 IH1 H2 IH2]; cbn [cnt]; lia.
Qed.

Lemma cnt_rev V x y : cnt (rev V) x y = cnt V x y.
Proof. apply cnt_perm. apply Permutation_sym. apply Permutation_rev. Qed.

Lemma col_total_app V W x : col_total (V ++ W) x = col_total V x + col_total W x.
Proof. induction V as [|v V IH]; cbn [app col_total]; [reflexivity|]. rewrite IH. lia. Qed.
Lemma row_total_app V W x : row_total (V ++ W) x = row_total V x + row_total W x.
Proof. induction V as [|v V IH]; cbn [app row_total]; [reflexivity|]. rewrite IH. lia. Qed.
Lemma col_total_perm V W : Permutation V W -> forall x, col_total V x = col_total W x.
Proof.
  intros H x. induction H as [|v V W H IH|v w V|V W U H1 IH1 H2 IH2]; cbn [col_total]; lia.
Qed.
Lemma row_total_perm V W : Permutation V W -> forall x, row_total V x = row_total W x.
Proof.
  intros H x. induction H as [|v V W H IH|v w V|V W U H1 IH1 H2 IH2]; cbn [row_total]; lia.
Qed.
Lemma closed_perm V W : Permutation V W -> closed V -> closed W.
Proof.
  intros H [H1 H2]. split; intros z.
  - rewrite <- (col_total_perm V W H). apply H1.
  - rewrite <- (row_total_perm V W H). apply H2.
Qed.
Lemma closed_app V W : closed V -> closed W -> closed (V ++ W).
Proof.
  intros [H1 H2] [H3 H4]. split; intros z.
  - rewrite col_total_app, H1, H3. reflexivity.
  - rewrite row_total_app, H2, H4. reflexivity.
Qed.
Lemma closed_nil : closed [].
Proof. split; intros z; reflexivity. Qed.

(* total count at one position *)
Fixpoint ptotal (V : list vertex) (x y : Z) : Z :=
  match V with
  | [] => 0
  | v :: V' => (if (vx v =? x) && (vy v =? y) then vc v else 0) + ptotal V' x y
  end.

Lemma ptotal_cnt V x y :
  ptotal V x y = cnt V x y - cnt V (x - 1) y - cnt V x (y - 1) + cnt V (x - 1) (y - 1).
Proof.
  induction V as [|v V IH]; cbn [ptotal cnt]; [reflexivity|]. rewrite IH.
  destruct (Z.eqb_spec (vx v) x), (Z.eqb_spec (vy v) y),
    (Z.leb_spec (vx v) x), (Z.leb_spec (vy v) y),
    (Z.leb_spec (vx v) (x - 1)), (Z.leb_spec (vy v) (y - 1)); cbn [andb]; lia.
Qed.

Lemma vertex_eq (v w : vertex) : vx v = vx w -> vy v = vy w -> vc v = vc w -> v = w.
Proof.
  destruct v as [a [b c]], w as [a' [b' c']]. unfold vx, vy, vc. cbn [fst snd].
  intros; subst; reflexivity.
Qed.

(* nothing at a position before the head *)
Lemma ptotal_before V x y :
  Forall (fun v => x < vx v \/ (x = vx v /\ y < vy v)) V -> ptotal V x y = 0.
Proof.
  induction V as [|v V IH]; intros H; cbn [ptotal]; [reflexivity|].
  inversion H as [|v' V' H1 H2]; subst. rewrite (IH H2).
  destruct (Z.eqb_spec (vx v) x), (Z.eqb_spec (vy v) y); cbn [andb]; lia.
Qed.

(* the sign of the total at the position of the head is the sign of the head *)
Lemma ptotal_head_sign V v : canonical (v :: V) -> 0 < vc v * ptotal (v :: V) (vx v) (vy v).
Proof.
  intros [Hu Hs]. inversion Hs as [|v' V' Hs1 Hs2]; subst. inversion Hu as [|v' V' Hu1 Hu2]; subst.
  cbn [ptotal]. rewrite !Z.eqb_refl. cbn [andb].
  assert (H : 0 <= vc v * ptotal V (vx v) (vy v)).
  { clear Hs Hs1 Hu. induction V as [|w V IH]; cbn [ptotal]; [lia|].
    inversion Hs2 as [|w' V' H1 H2]; subst. inversion Hu2 as [|w' V' H3 H4]; subst.
    specialize (IH H2 H4).
    unfold canon_le, pos_lt in H1. unfold unit_count in *.
    destruct (Z.eqb_spec (vx w) (vx v)), (Z.eqb_spec (vy w) (vy v)); cbn [andb]; try lia; nia. }
  unfold unit_count in Hu1. nia.
Qed.

Lemma canonical_tail v V : canonical (v :: V) -> canonical V.
Proof.
  intros [Hu Hs]. inversion Hs; subst. inversion Hu; subst. split; assumption.
Qed.

Lemma canonical_head_least v V x y : canonical (v :: V) ->
  x < vx v \/ (x = vx v /\ y < vy v) -> ptotal (v :: V) x y = 0.
Proof.
  intros [Hu Hs] H. apply ptotal_before. inversion Hs as [|v' V' Hs1 Hs2]; subst.
  constructor; [exact H|]. eapply Forall_impl; [|exact Hs2].
  intros w Hw. unfold canon_le, pos_lt in Hw. cbn beta in *. lia.
Qed.

Lemma canonical_unique_ptotal V : forall W, canonical V -> canonical W ->
  (forall x y, ptotal V x y = ptotal W x y) -> V = W.
Proof.
  induction V as [|v V IH]; intros W HV HW H.
  - destruct W as [|w W]; [reflexivity|].
    pose proof (ptotal_head_sign W w HW) as Hs. rewrite <- H in Hs. cbn [ptotal] in Hs. lia.
  - destruct W as [|w W].
    + pose proof (ptotal_head_sign V v HV) as Hs. rewrite H in Hs. cbn [ptotal] in Hs. lia.
    + pose proof (ptotal_head_sign V v HV) as Hsv. pose proof (ptotal_head_sign W w HW) as Hsw.
      assert (Hpos : vx v = vx w /\ vy v = vy w).
      { destruct (Z.lt_trichotomy (vx v) (vx w)) as [Hx|[Hx|Hx]].
        - rewrite H, (canonical_head_least w W) in Hsv by (try exact HW; lia). lia.
        - destruct (Z.lt_trichotomy (vy v) (vy w)) as [Hy|[Hy|Hy]].
          + rewrite H, (canonical_head_least w W) in Hsv by (try exact HW; lia). lia.
          + split; assumption.
          + rewrite <- H, (canonical_head_least v V) in Hsw by (try exact HV; lia). lia.
        - rewrite <- H, (canonical_head_least v V) in Hsw by (try exact HV; lia). lia. }
      destruct Hpos as [Hx Hy].
      assert (Hc : vc v = vc w).
      { rewrite <- Hx, <- Hy, <- H in Hsw.
        destruct HV as [Hu _], HW as [Hu' _]. inversion Hu as [|? ? U1 U2]; subst. inversion Hu' as [|? ? U3 U4]; subst.
        unfold unit_count in *. nia. }
      assert (E : v = w) by (apply vertex_eq; assumption). subst w. f_equal.
      apply IH.
      * eapply canonical_tail; exact HV.
      * eapply canonical_tail; exact HW.
      * intros x y. specialize (H x y). cbn [ptotal] in H. lia.
Qed.

Theorem canonical_unique V W : canonical V -> canonical W ->
  (forall x y, cnt V x y = cnt W x y) -> V = W.
Proof.
  intros HV HW H. apply canonical_unique_ptotal; try assumption.
  intros x y. rewrite !ptotal_cnt, !H. reflexivity.
Qed.

(* sums over rows and columns *)
Definition row_prefix (V : list vertex) (y : Z) : Z :=
  fold_right (fun v a => (if vy v <=? y then vc v else 0) + a) 0 V.
Definition col_prefix (V : list vertex) (x : Z) : Z :=
  fold_right (fun v a => (if vx v <=? x then vc v else 0) + a) 0 V.

Lemma row_prefix_step V y : row_prefix V y - row_prefix V (y - 1) = row_total V y.
Proof.
  induction V as [|v V IH]; cbn [row_prefix fold_right row_total]; [reflexivity|].
  fold (row_prefix V y) (row_prefix V (y - 1)).
  destruct (Z.leb_spec (vy v) y), (Z.leb_spec (vy v) (y - 1)), (Z.eqb_spec (vy v) y); lia.
Qed.
Lemma col_prefix_step V y : col_prefix V y - col_prefix V (y - 1) = col_total V y.
Proof.
  induction V as [|v V IH]; cbn [col_prefix fold_right col_total]; [reflexivity|].
  fold (col_prefix V y) (col_prefix V (y - 1)).
  destruct (Z.leb_spec (vx v) y), (Z.leb_spec (vx v) (y - 1)), (Z.eqb_spec (vx v) y); lia.
Qed.

(* bounds of the coordinates of a list *)
Lemma coord_bounds V : exists M, 0 <= M /\ Forall (fun v => - M <= vx v <= M /\ - M <= vy v <= M) V.
Proof.
  induction V as [|v V IH].
  - exists 0. split; [lia|constructor].
  - destruct IH as [M [HM HV]]. exists (Z.max M (Z.max (Z.abs (vx v)) (Z.abs (vy v)))).
    split; [lia|]. constructor; [lia|]. eapply Forall_impl; [|exact HV]. intros w Hw. cbn beta in *. lia.
Qed.

Lemma row_prefix_low V y : Forall (fun v => y < vy v) V -> row_prefix V y = 0.
Proof.
  induction V as [|v V IH]; intros H; [reflexivity|]. inversion H as [|? ? H1 H2]; subst.
  cbn [row_prefix fold_right]. fold (row_prefix V y). rewrite (IH H2).
  destruct (Z.leb_spec (vy v) y); lia.
Qed.
Lemma col_prefix_low V y : Forall (fun v => y < vx v) V -> col_prefix V y = 0.
Proof.
  induction V as [|v V IH]; intros H; [reflexivity|]. inversion H as [|? ? H1 H2]; subst.
  cbn [col_prefix fold_right]. fold (col_prefix V y). rewrite (IH H2).
  destruct (Z.leb_spec (vx v) y); lia.
Qed.

Lemma rows_closed_prefix V : rows_closed V -> forall y, row_prefix V y = 0.
Proof.
  intros Hr. destruct (coord_bounds V) as [M [HM HV]].
  assert (Hlow : forall y, y < - M -> row_prefix V y = 0).
  { intros y Hy. apply row_prefix_low. eapply Forall_impl; [|exact HV]. intros w Hw. cbn beta in *. lia. }
  assert (Hn : forall n : nat, row_prefix V (- M - 1 + Z.of_nat n) = 0).
  { induction n as [|n IH].
    - apply Hlow. lia.
    - pose proof (row_prefix_step V (- M - 1 + Z.of_nat (S n))) as Hstep. rewrite Hr in Hstep.
      replace (- M - 1 + Z.of_nat (S n) - 1) with (- M - 1 + Z.of_nat n) in Hstep by lia. lia. }
  intros y. destruct (Z.ltb_spec y (- M)) as [H|H]; [apply Hlow; exact H|].
  specialize (Hn (Z.to_nat (y + M + 1))). rewrite Z2Nat.id in Hn by lia.
  replace (- M - 1 + (y + M + 1)) with y in Hn by lia. exact Hn.
Qed.

Lemma cols_closed_prefix V : cols_closed V -> forall y, col_prefix V y = 0.
Proof.
  intros Hr. destruct (coord_bounds V) as [M [HM HV]].
  assert (Hlow : forall y, y < - M -> col_prefix V y = 0).
  { intros y Hy. apply col_prefix_low. eapply Forall_impl; [|exact HV]. intros w Hw. cbn beta in *. lia. }
  assert (Hn : forall n : nat, col_prefix V (- M - 1 + Z.of_nat n) = 0).
  { induction n as [|n IH].
    - apply Hlow. lia.
    - pose proof (col_prefix_step V (- M - 1 + Z.of_nat (S n))) as Hstep. rewrite Hr in Hstep.
      replace (- M - 1 + Z.of_nat (S n) - 1) with (- M - 1 + Z.of_nat n) in Hstep by lia. lia. }
  intros y. destruct (Z.ltb_spec y (- M)) as [H|H]; [apply Hlow; exact H|].
  specialize (Hn (Z.to_nat (y + M + 1))). rewrite Z2Nat.id in Hn by lia.
  replace (- M - 1 + (y + M + 1)) with y in Hn by lia. exact Hn.
Qed.

(* far to the right (above) the count is the row (column) prefix sum *)
Lemma cnt_right V x y : Forall (fun v => vx v <= x) V -> cnt V x y = row_prefix V y.
Proof.
  induction V as [|v V IH]; intros H; [reflexivity|]. inversion H as [|? ? H1 H2]; subst.
  cbn [cnt row_prefix fold_right]. fold (row_prefix V y). rewrite (IH H2).
  destruct (Z.leb_spec (vx v) x); [reflexivity|lia].
Qed.
Lemma cnt_top V x y : Forall (fun v => vy v <= y) V -> cnt V x y = col_prefix V x.
Proof.
  induction V as [|v V IH]; intros H; [reflexivity|]. inversion H as [|? ? H1 H2]; subst.
  cbn [cnt col_prefix fold_right]. fold (col_prefix V x). rewrite (IH H2).
  destruct (Z.leb_spec (vy v) y); [|lia]. rewrite andb_true_r. reflexivity.
Qed.
Lemma cnt_left V x y : Forall (fun v => x < vx v) V -> cnt V x y = 0.
Proof.
  induction V as [|v V IH]; intros H; [reflexivity|]. inversion H as [|? ? H1 H2]; subst.
  cbn [cnt]. rewrite (IH H2). destruct (Z.leb_spec (vx v) x); cbn [andb]; lia.
Qed.
Lemma cnt_bottom V x y : Forall (fun v => y < vy v) V -> cnt V x y = 0.
Proof.
  induction V as [|v V IH]; intros H; [reflexivity|]. inversion H as [|? ? H1 H2]; subst.
  cbn [cnt]. rewrite (IH H2). destruct (Z.leb_spec (vy v) y); [lia|]. rewrite andb_false_r. lia.
Qed.

(* the count vanishes outside a bounded area; the converse characterises
   closed data *)
Definition bounded_support (f : Z -> Z -> Z) : Prop :=
  exists M, forall x y, x < - M \/ M < x \/ y < - M \/ M < y -> f x y = 0.

Lemma closed_bounded V : closed V <-> bounded_support (cnt V).
Proof.
  destruct (coord_bounds V) as [M [HM HV]].
  assert (HX : forall x, M <= x -> Forall (fun v => vx v <= x) V).
  { intros x Hx. eapply Forall_impl; [|exact HV]. intros w Hw. cbn beta in *. lia. }
  assert (HY : forall y, M <= y -> Forall (fun v => vy v <= y) V).
  { intros x Hx. eapply Forall_impl; [|exact HV]. intros w Hw. cbn beta in *. lia. }
  split.
  - intros [Hc Hr]. exists M. intros x y [H|[H|[H|H]]].
    + apply cnt_left. eapply Forall_impl; [|exact HV]. intros w Hw. cbn beta in *. lia.
    + rewrite cnt_right by (apply HX; lia). apply rows_closed_prefix. exact Hr.
    + apply cnt_bottom. eapply Forall_impl; [|exact HV]. intros w Hw. cbn beta in *. lia.
    + rewrite cnt_top by (apply HY; lia). apply cols_closed_prefix. exact Hc.
  - intros [N HN]. split; intros z.
    + rewrite <- col_prefix_step.
      rewrite <- (cnt_top V z (Z.max M (N + 1))) by (apply HY; lia).
      rewrite <- (cnt_top V (z - 1) (Z.max M (N + 1))) by (apply HY; lia).
      rewrite !HN by lia. reflexivity.
    + rewrite <- row_prefix_step.
      rewrite <- (cnt_right V (Z.max M (N + 1)) z) by (apply HX; lia).
      rewrite <- (cnt_right V (Z.max M (N + 1)) (z - 1)) by (apply HX; lia).
      rewrite !HN by lia. reflexivity.
Qed.
