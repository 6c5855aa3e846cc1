(* The even-odd rule is constant along segments that do not meet the curve. *)
From Verif Require Import Base Units Outcome Scan90Spec Poly90Spec Poly90Model Poly90Proofs PolyCycle Poly90Vertices.
From Verif Require Import Set90Spec Set90Model GeoSpec IvlModel IvlProofs RectModel RectProofs SegModel SegProofs PolySpec PolyModel PolyArea PolyEdge PolyContains.

Local Notation iz := inject_Z.
Definition hgt (a b : point) (x : Q) : Q := (iz (py a) + (x - iz (px a)) * (iz (py b - py a) / iz (px b - px a)))%Q.
Lemma iz_pos n : 0 < n -> (0 < iz n)%Q.
Proof. intros H. change 0%Q with (iz 0). rewrite <- Zlt_Qlt. exact H. Qed.
Lemma hgt_on a b x : px a < px b -> (iz (px a) <= x /\ x <= iz (px b))%Q -> on_seg (mk_seg a b) (x, hgt a b x).
Proof.
  intros L [X1 X2]. assert (D : (0 < iz (px b - px a))%Q) by (apply iz_pos; lia).
  assert (E : (iz (px b - px a) == iz (px b) - iz (px a))%Q) by (unfold Z.sub; rewrite inject_Z_plus, inject_Z_opp; ring).
  exists ((x - iz (px a)) / iz (px b - px a))%Q. split.
  - split; [apply Qle_shift_div_l|apply Qle_shift_div_r]; try assumption; rewrite ?E; lra.
  - unfold same_pt, seg_at, hgt. cbn [s_low s_high fst snd]. split; field; lra.
Qed.
Lemma hgt_sd a b p : px a < px b -> (iz (sd a b p) == iz (px b - px a) * (iz (py p) - hgt a b (iz (px p))))%Q.
Proof.
  intros L. assert (D : (0 < iz (px b - px a))%Q) by (apply iz_pos; lia).
  rewrite sd_eq. unfold hgt. replace ((px b - px a) * (py p - py a) - (py b - py a) * (px p - px a)) with ((px b - px a) * (py p - py a) + - ((py b - py a) * (px p - px a))) by ring.
  rewrite inject_Z_plus, inject_Z_opp, !inject_Z_mult.
  assert (E1 : (iz (py p - py a) == iz (py p) - iz (py a))%Q) by (unfold Z.sub; rewrite inject_Z_plus, inject_Z_opp; ring).
  assert (E2 : (iz (px p - px a) == iz (px p) - iz (px a))%Q) by (unfold Z.sub; rewrite inject_Z_plus, inject_Z_opp; ring).
  rewrite E1, E2. field. lra.
Qed.
Lemma sd_pos a b p : px a < px b -> (0 < sd a b p <-> (hgt a b (iz (px p)) < iz (py p))%Q).
Proof.
  intros L. assert (D : (0 < iz (px b - px a))%Q) by (apply iz_pos; lia).
  rewrite Zlt_Qlt, (hgt_sd a b p L). change (iz 0) with 0%Q. set (h := hgt _ _ _). set (y := iz (py p)). set (d := iz _) in *. clearbody h y d.
  split; intros G; [|nra]. destruct (Qlt_le_dec h y); [assumption|nra].
Qed.
Lemma hgt_affine a b x t x' : (hgt a b (x + t * (x' - x)) == hgt a b x + t * (hgt a b x' - hgt a b x))%Q.
Proof. unfold hgt. set (s := (_ / _)%Q). ring. Qed.
(* two segments over a common range of x that change their order meet *)
Lemma cross_meet a b p q x1 x2 : px a < px b -> px p < px q -> (x1 <= x2)%Q ->
  (iz (px a) <= x1 /\ x2 <= iz (px b))%Q -> (iz (px p) <= x1 /\ x2 <= iz (px q))%Q ->
  ((hgt a b x1 <= hgt p q x1 /\ hgt p q x2 <= hgt a b x2) \/ (hgt p q x1 <= hgt a b x1 /\ hgt a b x2 <= hgt p q x2))%Q ->
  exists z, on_seg (mk_seg a b) z /\ on_seg (mk_seg p q) z.
Proof.
  intros L1 L2 X [A1 A2] [P1 P2] H.
  set (d1 := (hgt p q x1 - hgt a b x1)%Q). set (d2 := (hgt p q x2 - hgt a b x2)%Q).
  assert (T : exists t, (0 <= t /\ t <= 1 /\ d1 + t * (d2 - d1) == 0)%Q).
  { destruct (Qeq_dec d1 d2) as [E|E].
    - exists 0%Q. split; [lra|]. split; [lra|]. destruct H as [[H1 H2]|[H1 H2]]; unfold d1, d2 in *; lra.
    - exists (d1 / (d1 - d2))%Q.
      assert (NZ : ~ (d1 - d2 == 0)%Q) by (intros Z; apply E; lra).
      destruct H as [[H1 H2]|[H1 H2]].
      + assert (D : (0 < d1 - d2)%Q) by (unfold d1, d2 in *; lra).
        split; [apply Qle_shift_div_l; [exact D|unfold d1 in *; lra]|]. split; [apply Qle_shift_div_r; [exact D|unfold d2 in *; lra]|]. field. exact NZ.
      + assert (D : (0 < d2 - d1)%Q) by (unfold d1, d2 in *; lra).
        assert (E2 : (d1 / (d1 - d2) == - d1 / (d2 - d1))%Q) by (field; split; lra).
        rewrite E2. split; [apply Qle_shift_div_l; [exact D|unfold d1 in *; lra]|]. split; [apply Qle_shift_div_r; [exact D|unfold d2 in *; lra]|]. field. lra. }
  destruct T as [t [T1 [T2 T3]]]. set (x := (x1 + t * (x2 - x1))%Q).
  assert (XR : (x1 <= x /\ x <= x2)%Q) by (unfold x; split; nra).
  exists (x, hgt a b x). split; [apply hgt_on; [exact L1|lra]|].
  assert (E : (hgt a b x == hgt p q x)%Q).
  { unfold x. rewrite !hgt_affine. unfold d1, d2 in T3. lra. }
  destruct (hgt_on p q x L2 ltac:(lra)) as [s [S1 [S2 S3]]]. exists s. split; [exact S1|]. split; [exact S2|]. cbn [snd] in *. rewrite E. exact S3.
Qed.
Definition under (p q v : point) : bool := (px p <? px v) && (px v <=? px q) && (sd p q v <? 0).
Lemma sd_neg a b p : px a < px b -> (sd a b p < 0 <-> (iz (py p) < hgt a b (iz (px p)))%Q).
Proof.
  intros L. assert (D : (0 < iz (px b - px a))%Q) by (apply iz_pos; lia).
  rewrite Zlt_Qlt, (hgt_sd a b p L). change (iz 0) with 0%Q. set (h := hgt _ _ _). set (y := iz (py p)). set (d := iz _) in *. clearbody h y d.
  split; intros G; [|nra]. destruct (Qlt_le_dec y h); [assumption|nra].
Qed.
Lemma hgt_end1 a b : (hgt a b (iz (px a)) == iz (py a))%Q.
Proof. unfold hgt. ring. Qed.
Lemma hgt_end2 a b : px a < px b -> (hgt a b (iz (px b)) == iz (py b))%Q.
Proof.
  intros L. assert (D : (0 < iz (px b - px a))%Q) by (apply iz_pos; lia). unfold hgt.
  assert (E1 : (iz (py b - py a) == iz (py b) - iz (py a))%Q) by (unfold Z.sub; rewrite inject_Z_plus, inject_Z_opp; ring).
  assert (E2 : (iz (px b - px a) == iz (px b) - iz (px a))%Q) by (unfold Z.sub; rewrite inject_Z_plus, inject_Z_opp; ring).
  rewrite E1, E2 in *. field. lra.
Qed.
(* an edge that does not meet the segment crosses the rays down from p and q as
   often as the segment's shadow changes between its ends, modulo 2 *)
Lemma edge_shadow a b p q : px p < px q -> px a <= px b ->
  (forall z, on_seg (mk_seg a b) z -> ~ on_seg (mk_seg p q) z) ->
  xorb (below p (a, b)) (below q (a, b)) = xorb (under p q a) (under p q b).
Proof.
  intros L O N. rewrite !below_eq. rewrite Z.min_l, Z.max_r by lia.
  destruct (Z.eq_dec (px a) (px b)) as [V|V].
  - replace ((px a <=? px p) && (px p <? px b)) with false by lia. replace ((px a <=? px q) && (px q <? px b)) with false by lia. cbn [andb xorb].
    unfold under. rewrite <- V. destruct ((px p <? px a) && (px a <=? px q)) eqn:R; cbn [andb]; [|reflexivity].
    assert (X : (iz (px p) <= iz (px a) /\ iz (px a) <= iz (px q))%Q) by (rewrite <- !Zle_Qle; lia).
    assert (F : forall u v, px u = px a -> px v = px a -> (forall z, on_seg (mk_seg u v) z -> ~ on_seg (mk_seg p q) z) -> sd p q u < 0 -> 0 <= sd p q v -> False).
    { intros u v U1 V1 N1 S1 S2. apply (sd_neg p q u L) in S1. rewrite U1 in S1.
      assert (S3 : (hgt p q (iz (px a)) <= iz (py v))%Q).
      { destruct (Z.eq_dec (sd p q v) 0) as [Z0|Z0].
        - pose proof (hgt_sd p q v L) as K. rewrite Z0, V1 in K. assert (D : (0 < iz (px q - px p))%Q) by (apply iz_pos; lia). change (iz 0) with 0%Q in K. nra.
        - assert (P : 0 < sd p q v) by lia. apply (sd_pos p q v L) in P. rewrite V1 in P. lra. }
      apply (N1 (iz (px a), hgt p q (iz (px a)))); [|apply hgt_on; assumption].
      exists ((hgt p q (iz (px a)) - iz (py u)) / (iz (py v) - iz (py u)))%Q. set (h := hgt p q (iz (px a))) in *.
      assert (D : (0 < iz (py v) - iz (py u))%Q) by lra.
      split; [split; [apply Qle_shift_div_l|apply Qle_shift_div_r]; try assumption; lra|].
      unfold same_pt, seg_at. cbn [s_low s_high fst snd]. unfold Z.sub. rewrite !inject_Z_plus, !inject_Z_opp, U1, V1. split; field; lra. }
    destruct (Z.ltb_spec (sd p q a) 0) as [S1|S1], (Z.ltb_spec (sd p q b) 0) as [S2|S2]; try reflexivity; exfalso.
    + apply (F a b); try assumption; congruence.
    + apply (F b a); try assumption; try congruence. intros z Hz. apply N, on_seg_sym, Hz.
  - assert (LL : px a < px b) by lia. destruct (Z.ltb_spec (px a) (px b)); [|lia].
    (* heights at a common x *)
    assert (NC : forall x1 x2, (x1 <= x2)%Q -> (iz (px a) <= x1 /\ x2 <= iz (px b))%Q -> (iz (px p) <= x1 /\ x2 <= iz (px q))%Q ->
      ((hgt a b x1 < hgt p q x1)%Q <-> (hgt a b x2 < hgt p q x2)%Q)).
    { intros x1 x2 X1 X2 X3.
      assert (NO : ~ ((hgt a b x1 <= hgt p q x1 /\ hgt p q x2 <= hgt a b x2) \/ (hgt p q x1 <= hgt a b x1 /\ hgt a b x2 <= hgt p q x2))%Q).
      { intros C. destruct (cross_meet a b p q x1 x2 LL L X1 X2 X3 C) as [z [Z1 Z2]]. exact (N z Z1 Z2). }
      split; intros G.
      - destruct (Qlt_le_dec (hgt a b x2) (hgt p q x2)) as [?|W]; [assumption|]. exfalso. apply NO. left. lra.
      - destruct (Qlt_le_dec (hgt a b x1) (hgt p q x1)) as [?|W]; [assumption|]. exfalso. apply NO. right. lra. }
    assert (BP : (0 <? sd a b p) = true <-> (hgt a b (iz (px p)) < hgt p q (iz (px p)))%Q) by (rewrite Z.ltb_lt, (sd_pos a b p LL), hgt_end1; reflexivity).
    assert (BQ : (0 <? sd a b q) = true <-> (hgt a b (iz (px q)) < hgt p q (iz (px q)))%Q) by (rewrite Z.ltb_lt, (sd_pos a b q LL), (hgt_end2 p q L); reflexivity).
    assert (UA : (sd p q a <? 0) = true <-> (hgt a b (iz (px a)) < hgt p q (iz (px a)))%Q) by (rewrite Z.ltb_lt, (sd_neg p q a L), hgt_end1; reflexivity).
    assert (UB : (sd p q b <? 0) = true <-> (hgt a b (iz (px b)) < hgt p q (iz (px b)))%Q) by (rewrite Z.ltb_lt, (sd_neg p q b L), (hgt_end2 a b LL); reflexivity).
    assert (EQB : forall b1 b2 : bool, (b1 = true <-> b2 = true) -> b1 = b2) by (intros [|] [|] [H1 H2]; try reflexivity; [symmetry; apply H1; reflexivity|apply H2; reflexivity]).
    unfold under.
    destruct (Z_le_gt_dec (px a) (px p)) as [C1|C1]; [|destruct (Z_le_gt_dec (px a) (px q)) as [C2|C2]].
    + replace ((px p <? px a) && (px a <=? px q)) with false by lia.
      destruct (Z_le_gt_dec (px b) (px p)) as [D1|D1]; [|destruct (Z_le_gt_dec (px b) (px q)) as [D2|D2]].
      * replace ((px a <=? px p) && (px p <? px b)) with false by lia. replace ((px a <=? px q) && (px q <? px b)) with false by lia.
        replace ((px p <? px b) && (px b <=? px q)) with false by lia. reflexivity.
      * replace ((px a <=? px p) && (px p <? px b)) with true by lia. replace ((px a <=? px q) && (px q <? px b)) with false by lia.
        replace ((px p <? px b) && (px b <=? px q)) with true by lia. cbn [andb]. rewrite ?xorb_false_r, ?xorb_false_l.
        apply EQB. rewrite BP, UB. apply NC; rewrite <- ?Zle_Qle; lia.
      * replace ((px a <=? px p) && (px p <? px b)) with true by lia. replace ((px a <=? px q) && (px q <? px b)) with true by lia.
        replace ((px p <? px b) && (px b <=? px q)) with false by lia. cbn [andb]. rewrite ?xorb_false_r, ?xorb_false_l.
        replace (0 <? sd a b q) with (0 <? sd a b p); [apply xorb_nilpotent|].
        apply EQB. rewrite BP, BQ. apply NC; rewrite <- ?Zle_Qle; lia.
    + replace ((px p <? px a) && (px a <=? px q)) with true by lia. replace ((px a <=? px p) && (px p <? px b)) with false by lia.
      destruct (Z_le_gt_dec (px b) (px q)) as [D2|D2].
      * replace ((px a <=? px q) && (px q <? px b)) with false by lia. replace ((px p <? px b) && (px b <=? px q)) with true by lia. cbn [andb]. rewrite ?xorb_false_r, ?xorb_false_l.
        replace (sd p q b <? 0) with (sd p q a <? 0); [symmetry; apply xorb_nilpotent|].
        apply EQB. rewrite UA, UB. apply NC; rewrite <- ?Zle_Qle; lia.
      * replace ((px a <=? px q) && (px q <? px b)) with true by lia. replace ((px p <? px b) && (px b <=? px q)) with false by lia. cbn [andb]. rewrite ?xorb_false_r, ?xorb_false_l.
        apply EQB. rewrite UA, BQ. symmetry. apply NC; rewrite <- ?Zle_Qle; lia.
    + replace ((px p <? px a) && (px a <=? px q)) with false by lia. replace ((px p <? px b) && (px b <=? px q)) with false by lia.
      replace ((px a <=? px p) && (px p <? px b)) with false by lia. replace ((px a <=? px q) && (px q <? px b)) with false by lia. reflexivity.
Qed.
Lemma edge_vertical a b p q : px p = px q -> px a <= px b ->
  (forall z, on_seg (mk_seg a b) z -> ~ on_seg (mk_seg p q) z) -> below p (a, b) = below q (a, b).
Proof.
  intros X O N. rewrite !below_eq. rewrite Z.min_l, Z.max_r by lia. rewrite <- X.
  destruct ((px a <=? px p) && (px p <? px b)) eqn:R; cbn [andb]; [|reflexivity]. destruct (Z.ltb_spec (px a) (px b)) as [LL|LL]; [|lia].
  assert (IN : (iz (px a) <= iz (px p) /\ iz (px p) <= iz (px b))%Q) by (rewrite <- !Zle_Qle; lia).
  set (h := hgt a b (iz (px p))).
  assert (F : forall u v, px u = px p -> px v = px p -> (forall z, on_seg (mk_seg a b) z -> ~ on_seg (mk_seg u v) z) -> (iz (py u) <= h -> h < iz (py v) -> False)%Q).
  { intros u v U1 V1 N1 S1 S2. apply (N1 (iz (px p), h)); [apply hgt_on; assumption|].
    exists ((h - iz (py u)) / (iz (py v) - iz (py u)))%Q.
    assert (D : (0 < iz (py v) - iz (py u))%Q) by lra.
    split; [split; [apply Qle_shift_div_l|apply Qle_shift_div_r]; try assumption; lra|].
    unfold same_pt, seg_at. cbn [s_low s_high fst snd]. unfold Z.sub. rewrite !inject_Z_plus, !inject_Z_opp, U1, V1. split; field; lra. }
  pose proof (sd_pos a b p LL) as P1. pose proof (sd_pos a b q LL) as P2. rewrite <- X in P2. fold h in P1, P2.
  destruct (Z.ltb_spec 0 (sd a b p)) as [S1|S1], (Z.ltb_spec 0 (sd a b q)) as [S2|S2]; try reflexivity; exfalso.
  - apply P1 in S1. destruct (Qlt_le_dec h (iz (py q))) as [G|G]; [apply P2 in G; lia|].
    apply (F q p); try assumption; try congruence. intros z Z1 Z2. exact (N z Z1 (on_seg_sym _ _ _ Z2)).
  - apply P2 in S2. destruct (Qlt_le_dec h (iz (py p))) as [G|G]; [apply P1 in G; lia|].
    apply (F p q); try assumption; congruence.
Qed.
Lemma avoids_sym l p q : avoids l p q -> avoids l q p.
Proof. intros H e z I O1 O2. exact (H e z I O1 (on_seg_sym _ _ _ O2)). Qed.
Lemma below_const_lt l p q : px p < px q -> avoids l p q -> Z.odd (edges_below l p) = Z.odd (edges_below l q).
Proof.
  intros L H.
  assert (E : Z.odd (edges_below l p - edges_below l q) = false).
  { change false with (Z.odd 0). rewrite <- (cyc_telescope (fun v => b2z (under p q v)) l).
    unfold edges_below, count_if, Z.sub at 1. rewrite <- zsum_opp, <- zsum_add. apply odd_sum_ext. intros [a b] I. cbn [fst snd].
    assert (K : xorb (below p (a, b)) (below q (a, b)) = xorb (under p q a) (under p q b)).
    { destruct (Z_le_gt_dec (px a) (px b)) as [O|O].
      - apply edge_shadow; try assumption. intros z. exact (H (a, b) z I).
      - rewrite <- (below_swap p (a, b)), <- (below_swap q (a, b)), (xorb_comm (under p q a)). unfold swap_edge; cbn [fst snd].
        apply edge_shadow; [exact L|lia|]. intros z Z1. exact (H (a, b) z I (on_seg_sym _ _ _ Z1)). }
    destruct (below p (a, b)), (below q (a, b)), (under p q a), (under p q b); cbn [xorb] in K; try discriminate; reflexivity. }
  rewrite odd_sub in E. destruct (Z.odd (edges_below l p)), (Z.odd (edges_below l q)); cbn in E; congruence.
Qed.
Lemma below_const l p q : avoids l p q -> Z.odd (edges_below l p) = Z.odd (edges_below l q).
Proof.
  intros H. destruct (Z.lt_trichotomy (px p) (px q)) as [L|[L|L]].
  - apply below_const_lt; assumption.
  - apply odd_sum_ext. intros [a b] I. f_equal.
    destruct (Z_le_gt_dec (px a) (px b)) as [O|O].
    + rewrite (edge_vertical a b p q L O); [reflexivity|]. intros z. exact (H (a, b) z I).
    + rewrite <- (below_swap p (a, b)), <- (below_swap q (a, b)). unfold swap_edge; cbn [fst snd].
      rewrite (edge_vertical b a p q L ltac:(lia)); [reflexivity|]. intros z Z1. exact (H (a, b) z I (on_seg_sym _ _ _ Z1)).
  - symmetry. apply below_const_lt; [lia|]. apply avoids_sym, H.
Qed.
