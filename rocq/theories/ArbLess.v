(* The order of the scan line, less_half_edge, on edges that meet at end points only. *)
From Verif Require Import Base Units Outcome Scan90Spec Poly90Spec Poly90Model GeoSpec IvlModel RectModel SegModel PolyModel PolyEdge ScanBaseModel ScanBaseOab ScanBaseCross SnapModel SnapSpec SnapProofs ArbSpec ArbOrder ArbSums ArbModel.
From Coq Require Import Reals Lra.

Lemma fits_int s : fits s -> pt_int (s_low s) /\ pt_int (s_high s).
Proof. unfold fits, coord_fits, pt_int, is_int, INT_MIN, INT_MAX. lia. Qed.
Lemma int_diff_ok z : Z.abs z < 2 ^ 31 -> int_diff z = Ok z.
Proof. intros H. unfold int_diff, chk, INT_MIN, INT_MAX. rewrite !(proj2 (andb_true_iff _ _)) by lia. reflexivity. Qed.
Lemma pt_less_lex p q : pt_less p q = lex_lt p q.
Proof. reflexivity. Qed.
Lemma oab_ord p s : pt_int p -> fits s -> ordered s -> sb_oab p s = Z.sgn (side s p).
Proof.
  intros P F O. destruct (fits_int s F) as [A B]. unfold sb_oab. rewrite oab_up by assumption. destruct s; reflexivity.
Qed.
Lemma oab_ord' p s : pt_int p -> pt_int (s_low s) -> pt_int (s_high s) -> ordered s -> sb_oab p s = Z.sgn (side s p).
Proof. intros P A B O. unfold sb_oab. rewrite oab_up by assumption. destruct s; reflexivity. Qed.
Lemma side_height s p : px (s_low s) < px (s_high s) -> IZR (side s p) = ((IZR (px (s_high s)) - IZR (px (s_low s))) * (IZR (py p) - height s (IZR (px p))))%R.
Proof.
  intros L. apply IZR_lt in L. destruct s as [a b]. cbn [s_low s_high] in *. rewrite side_cross. rewrite minus_IZR, !mult_IZR, !minus_IZR. unfold height. cbn [s_low s_high]. field. lra.
Qed.
Lemma sgn_pos z : Z.sgn z = 1 <-> (0 < IZR z)%R.
Proof. split; intros H; [apply (IZR_lt 0); lia|apply lt_IZR in H; lia]. Qed.
Lemma sgn_neg z : Z.sgn z = -1 <-> (IZR z < 0)%R.
Proof. split; intros H; [apply (IZR_lt z 0); lia|apply lt_IZR in H; lia]. Qed.
Lemma sgn_zero z : Z.sgn z = 0 <-> (IZR z = 0)%R.
Proof. split; intros H; [assert (z = 0) as -> by lia; reflexivity|apply eq_IZR in H; lia]. Qed.
Lemma oab_1 p s : pt_int p -> fits s -> px (s_low s) < px (s_high s) -> (sb_oab p s = 1 <-> (height s (IZR (px p)) < IZR (py p))%R).
Proof.
  intros P F L. rewrite oab_ord by (try assumption; apply ordered_iff; lia). rewrite sgn_pos, side_height by exact L. apply IZR_lt in L. split; intros H; nra.
Qed.
Lemma oab_m1 p s : pt_int p -> fits s -> px (s_low s) < px (s_high s) -> (sb_oab p s = -1 <-> (IZR (py p) < height s (IZR (px p)))%R).
Proof.
  intros P F L. rewrite oab_ord by (try assumption; apply ordered_iff; lia). rewrite sgn_neg, side_height by exact L. apply IZR_lt in L. split; intros H; nra.
Qed.
Lemma oab_0 p s : pt_int p -> fits s -> px (s_low s) < px (s_high s) -> (sb_oab p s = 0 <-> (height s (IZR (px p)) = IZR (py p))%R).
Proof.
  intros P F L. rewrite oab_ord by (try assumption; apply ordered_iff; lia). rewrite sgn_zero, side_height by exact L. apply IZR_lt in L. split; intros H; nra.
Qed.
Lemma oab_cases p s : pt_int p -> fits s -> px (s_low s) < px (s_high s) -> sb_oab p s = -1 \/ sb_oab p s = 0 \/ sb_oab p s = 1.
Proof. intros P F L. rewrite oab_ord by (try assumption; apply ordered_iff; lia). lia. Qed.

(* the ordinates of an edge are between those of its ends *)
Lemma height_bounds s x : px (s_low s) < px (s_high s) -> inc s x ->
  (IZR (Z.min (py (s_low s)) (py (s_high s))) <= height s x <= IZR (Z.max (py (s_low s)) (py (s_high s))))%R.
Proof.
  intros L I. destruct (on_height s x L I) as [t [T [_ ->]]].
  assert (A : (IZR (Z.min (py (s_low s)) (py (s_high s))) <= IZR (py (s_low s)))%R) by (apply IZR_le; lia).
  assert (B : (IZR (Z.min (py (s_low s)) (py (s_high s))) <= IZR (py (s_high s)))%R) by (apply IZR_le; lia).
  assert (C : (IZR (py (s_low s)) <= IZR (Z.max (py (s_low s)) (py (s_high s))))%R) by (apply IZR_le; lia).
  assert (D : (IZR (py (s_high s)) <= IZR (Z.max (py (s_low s)) (py (s_high s))))%R) by (apply IZR_le; lia).
  split; nra.
Qed.

(* looking up the edges at a point, from the left *)
Lemma vhe_ok p : coord_fits (py p) -> vhe p = Ok (mk_seg p (mk_pt (px p) (py p + 1))).
Proof.
  intros F. unfold vhe, coord_fits, chk, INT_MIN, INT_MAX in *. rewrite (proj2 (Z.eqb_neq _ _)) by lia. cbn [negb]. rewrite (proj2 (andb_true_iff _ _)) by lia. reflexivity.
Qed.
Lemma less_key e p : fits e -> coord_fits (px p) -> coord_fits (py p) -> px (s_low e) < px p <= px (s_high e) ->
  he_less (px p) true e (mk_seg p (mk_pt (px p) (py p + 1))) = Ok (rltb (height e (IZR (px p))) (IZR (py p))).
Proof.
  intros F Fx Fy A. assert (L : px (s_low e) < px (s_high e)) by lia.
  assert (I : inc e (IZR (px p))) by (split; apply IZR_le; lia). pose proof (height_bounds e _ L I) as HB. pose proof (height_high e L) as HH.
  unfold he_less. cbn [s_low s_high px py].
  destruct (Z.ltb_spec (Z.max (py (s_low e)) (py (s_high e))) (Z.min (py p) (py p + 1))) as [H|H].
  { f_equal. symmetry. apply rltb_iff. assert (Z.max (py (s_low e)) (py (s_high e)) < py p) as K by lia. apply IZR_lt in K. lra. }
  destruct (Z.gtb_spec (Z.min (py (s_low e)) (py (s_high e))) (Z.max (py p) (py p + 1))) as [K|K].
  { f_equal. symmetry. apply (bool_not _ _ (rltb_iff _ _)). assert (py p < Z.min (py (s_low e)) (py (s_high e))) as J by lia. apply IZR_lt in J. lra. }
  unfold end_at. cbn [s_low s_high px py]. rewrite Z.eqb_refl. rewrite (proj2 (Z.eqb_neq (px p) (px (s_low e)))) by lia.
  destruct (Z.eqb_spec (px p) (px (s_high e))) as [Q|Q].
  - rewrite <- Q in HH. rewrite HH. destruct (Z.ltb_spec (py (s_high e)) (py p)) as [J|J].
    + f_equal. symmetry. apply rltb_iff, IZR_lt, J.
    + destruct (Z.eqb_spec (py (s_high e)) (py p)) as [J'|J'].
      * rewrite J'. assert (SE : seg_eqb e (mk_seg p (mk_pt (px p) (py p + 1))) = false).
        { destruct (seg_eqb e (mk_seg p (mk_pt (px p) (py p + 1)))) eqn:SE; [|reflexivity]. unfold seg_eqb, pt_eqb in SE. cbn [s_low s_high px py] in SE. lia. }
        rewrite SE. unfold fits in F. rewrite !int_diff_ok by lia. cbn [obind]. f_equal. rewrite (bool_not _ _ (rltb_iff _ _)) by lra.
        assert (LS : eu_less_slope4 (px (s_high e) - px (s_low e)) (py (s_high e) - py (s_low e)) (px p - px p) (py p + 1 - py p) = true).
        { apply less_slope4_spec; [unfold dif; lia|unfold dif; lia|unfold dif; lia|unfold dif; lia|]. split; [lia|]. left. lia. }
        rewrite J' in LS. rewrite LS. reflexivity.
      * f_equal. symmetry. apply (bool_not _ _ (rltb_iff _ _)). apply IZR_le in J. lra.
  - set (v := mk_seg p (mk_pt (px p) (py p + 1))). destruct (fits_int e F) as [P1 P2].
    assert (PP : pt_int p) by (unfold coord_fits, pt_int, is_int, INT_MIN, INT_MAX in *; lia).
    assert (S1 : sb_oab (s_low e) v <> sb_oab (s_high e) v).
    { assert (V1 : pt_int (s_low v)) by exact PP.
      assert (V2 : pt_int (s_high v)) by (unfold v, coord_fits, pt_int, is_int, INT_MIN, INT_MAX in *; cbn [s_low s_high px py]; lia).
      assert (V3 : ordered v) by (unfold v; apply ordered_iff; cbn [s_low s_high px py]; lia).
      rewrite !oab_ord' by assumption. unfold v. rewrite !side_cross. cbn [px py]. intros Q1.
      replace ((px p - px (s_low e)) * (py p + 1 - py (s_low e)) - (py p - py (s_low e)) * (px p - px (s_low e))) with (px p - px (s_low e)) in Q1 by ring.
      replace ((px p - px (s_high e)) * (py p + 1 - py (s_high e)) - (py p - py (s_high e)) * (px p - px (s_high e))) with (px p - px (s_high e)) in Q1 by ring. lia. }
    rewrite (proj2 (Z.eqb_neq _ _) S1). f_equal. apply eq_true_iff_eq. rewrite Z.eqb_eq, rltb_iff. apply oab_1; assumption.
Qed.

Section order.
  Variable E : list seg.
  Hypothesis nod : noded E.
  Hypothesis ord : forall s, In s E -> ordered s.
  Hypothesis fit : forall s, In s E -> fits s.

  Lemma lte_dec e f x : In e E -> In f E -> inr e x -> inr f x -> lte e f \/ ~ lte e f.
  Proof.
    intros He Hf I J. destruct (Rlt_dec (height e x) (height f x)) as [H|H]; [left; exists x; auto|right]. intros K. apply H. apply (lte_at E nod ord e f x); assumption.
  Qed.
  (* a new edge and one that is in the scan line already, to the right of x *)
  Lemma less_right e f x : In e E -> In f E -> px (s_low e) <= x < px (s_high e) -> px (s_low f) <= x < px (s_high f) -> px (s_low e) = x \/ px (s_low f) = x ->
    exists b, he_less x false e f = Ok b /\ (b = true <-> lte e f).
  Proof.
    intros He Hf A B N. pose proof (fit e He) as Fe. pose proof (fit f Hf) as Ff. destruct (fits_int e Fe) as [E1 E2]. destruct (fits_int f Ff) as [F1 F2].
    assert (Le : px (s_low e) < px (s_high e)) by lia. assert (Lf : px (s_low f) < px (s_high f)) by lia.
    assert (IE : inr e (IZR x + / 2)) by (split; [apply izr_half_lt|apply izr_half_gt]; lia).
    assert (IF : inr f (IZR x + / 2)) by (split; [apply izr_half_lt|apply izr_half_gt]; lia).
    assert (IFF : lte e f <-> (height e (IZR x + / 2) < height f (IZR x + / 2))%R).
    { split; [intros H; apply (lte_at E nod ord e f); assumption|]. intros H. exists (IZR x + / 2)%R. auto. }
    assert (CE : inc e (IZR x)) by (split; apply IZR_le; lia). assert (CF : inc f (IZR x)) by (split; apply IZR_le; lia).
    pose proof (height_bounds e _ Le (inr_inc _ _ IE)) as HE. pose proof (height_bounds f _ Lf (inr_inc _ _ IF)) as HF.
    unfold he_less.
    destruct (Z.ltb_spec (Z.max (py (s_low e)) (py (s_high e))) (Z.min (py (s_low f)) (py (s_high f)))) as [H|H].
    { exists true. split; [reflexivity|]. split; [|reflexivity]. intros _. apply IFF. apply IZR_lt in H. lra. }
    destruct (Z.gtb_spec (Z.min (py (s_low e)) (py (s_high e))) (Z.max (py (s_low f)) (py (s_high f)))) as [K|K].
    { exists false. split; [reflexivity|]. split; [discriminate|]. intros Q. apply IFF in Q. apply IZR_lt in K. lra. }
    clear H K HE HF. unfold end_at. rewrite (proj2 (Z.eqb_neq x (px (s_high e)))) by lia. rewrite (proj2 (Z.eqb_neq x (px (s_high f)))) by lia.
    assert (ORD : (height e (IZR x) < height f (IZR x))%R -> lte e f).
    { intros H. destruct (lte_total E nod ord e f _ He Hf IE IF) as [->|[Q|Q]]; [lra|exact Q|]. pose proof (lte_le E nod ord f e (IZR x) Hf He Q CF CE). lra. }
    assert (ORD' : (height f (IZR x) < height e (IZR x))%R -> ~ lte e f).
    { intros H Q. pose proof (lte_le E nod ord e f (IZR x) He Hf Q CE CF). lra. }
    pose proof (height_low e) as He0. pose proof (height_low f) as Hf0.
    destruct (Z.eqb_spec x (px (s_low e))) as [Xe|Xe], (Z.eqb_spec x (px (s_low f))) as [Xf|Xf].
    - (* both begin at x *)
      rewrite <- Xe in He0. rewrite <- Xf in Hf0. destruct (Z.ltb_spec (py (s_low e)) (py (s_low f))) as [H|H].
      { exists true. split; [reflexivity|]. split; [|reflexivity]. intros _. apply ORD. rewrite He0, Hf0. apply IZR_lt, H. }
      destruct (Z.eqb_spec (py (s_low e)) (py (s_low f))) as [Y|Y].
      + destruct (seg_eqb e f) eqn:SE.
        * exists false. split; [reflexivity|]. split; [discriminate|]. intros Q. exfalso.
          assert (e = f) as ->; [|apply (lte_irrefl _ Q)]. apply eq_seg_iff. exact SE.
        * unfold fits in Fe, Ff. rewrite !int_diff_ok by lia. cbn [obind]. exists (xorb false (eu_less_slope4 (px (s_high e) - px (s_low e)) (py (s_high e) - py (s_low e)) (px (s_high f) - px (s_low f)) (py (s_high f) - py (s_low f)))).
          split; [reflexivity|]. rewrite xorb_false_l. rewrite less_slope4_spec by (unfold dif; lia). rewrite IFF. clear ORD ORD' IFF.
          set (dx1 := px (s_high e) - px (s_low e)). set (dy1 := py (s_high e) - py (s_low e)). set (dx2 := px (s_high f) - px (s_low f)). set (dy2 := py (s_high f) - py (s_low f)).
          assert (D1 : 0 < dx1) by (unfold dx1; lia). assert (D2 : 0 < dx2) by (unfold dx2; lia).
          assert (HE : height e (IZR x + / 2) = (IZR (py (s_low f)) + / 2 * (IZR dy1 / IZR dx1))%R).
          { unfold height. rewrite <- Xe, Y. unfold dy1, dx1. rewrite !minus_IZR, <- Xe, Y. ring. }
          assert (HF : height f (IZR x + / 2) = (IZR (py (s_low f)) + / 2 * (IZR dy2 / IZR dx2))%R).
          { unfold height. rewrite <- Xf. unfold dy2, dx2. rewrite !minus_IZR, <- Xf. ring. }
          rewrite HE, HF. apply IZR_lt in D1 as R1. apply IZR_lt in D2 as R2.
          assert (CR : (IZR dy1 / IZR dx1 < IZR dy2 / IZR dx2)%R <-> (IZR dy1 * IZR dx2 < IZR dx1 * IZR dy2)%R).
          { split; intros Q.
            - apply Rmult_lt_compat_r with (r := (IZR dx1 * IZR dx2)%R) in Q; [|nra]. replace (IZR dy1 / IZR dx1 * (IZR dx1 * IZR dx2))%R with (IZR dy1 * IZR dx2)%R in Q by (field; lra). replace (IZR dy2 / IZR dx2 * (IZR dx1 * IZR dx2))%R with (IZR dx1 * IZR dy2)%R in Q by (field; lra). exact Q.
            - apply Rmult_lt_reg_r with (r := (IZR dx1 * IZR dx2)%R); [nra|]. replace (IZR dy1 / IZR dx1 * (IZR dx1 * IZR dx2))%R with (IZR dy1 * IZR dx2)%R by (field; lra). replace (IZR dy2 / IZR dx2 * (IZR dx1 * IZR dx2))%R with (IZR dx1 * IZR dy2)%R by (field; lra). exact Q. }
          split.
          -- intros [_ [Q|[_ Q]]]; [lia|]. clear - Q D1 D2 CR. assert (dy1 * dx2 < dx1 * dy2) as Q' by (assert (0 < dx1 * dx2) by nia; nia). apply IZR_lt in Q'. rewrite !mult_IZR in Q'. apply CR in Q'. lra.
          -- intros Q. split; [lia|]. right. split; [lia|]. assert (IZR dy1 / IZR dx1 < IZR dy2 / IZR dx2)%R as Q' by lra. apply CR in Q'. rewrite <- !mult_IZR in Q'. apply lt_IZR in Q'. clear - Q' D1 D2. assert (0 < dx1 * dx2) by nia. nia.
      + exists false. split; [reflexivity|]. split; [discriminate|]. intros Q. exfalso. apply ORD' in Q; [exact Q|]. rewrite He0, Hf0. apply IZR_lt. lia.
    - (* e begins at x *)
      assert (IF0 : inr f (IZR x)) by (split; apply IZR_lt; lia).
      assert (NE : height f (IZR x) <> IZR (py (s_low e))).
      { intros Q. assert (e = f) as ->; [|lia]. apply (touch E nod ord f e (IZR x) Hf He IF0). rewrite Q, Xe. apply on_low. }
      rewrite <- Xe in He0.
      pose proof (oab_m1 _ f E1 Ff Lf) as O1. pose proof (oab_1 _ f E1 Ff Lf) as O2. pose proof (oab_0 _ f E1 Ff Lf) as O0. rewrite <- Xe in O1, O2, O0.
      assert (LT : lte e f <-> sb_oab (s_low e) f = -1).
      { rewrite O1, <- He0. split; [|apply ORD]. intros Q. destruct (Rtotal_order (height e (IZR x)) (height f (IZR x))) as [R|[R|R]]; [exact R|lra|]. exfalso. apply (ORD' R Q). }
      destruct (Z.eqb_spec (sb_oab (s_low e) f) (sb_oab (s_high e) f)) as [Q|Q].
      + exists (sb_oab (s_low e) f =? -1). split; [reflexivity|]. rewrite Z.eqb_eq. symmetry. exact LT.
      + exists (sb_oab (s_low f) e =? 1). split; [reflexivity|]. rewrite Z.eqb_eq, LT, (oab_1 _ e F1 Fe Le), O1.
        pose proof (oab_m1 _ f E2 Ff Lf) as P1. pose proof (oab_1 _ f E2 Ff Lf) as P2. pose proof (oab_0 _ f E2 Ff Lf) as P0.
        pose proof (height_high e Le) as Heh. rewrite <- Heh in P1, P2, P0. rewrite <- He0 in O1, O2, O0, NE |- *.
        (* the difference is linear *)
        set (g := fun t : R => (height f t - height e t)%R).
        set (a := IZR (px (s_low f))) in *. set (b := IZR (px (s_high e))) in *.
        assert (AX : (a < IZR x < b)%R) by (split; apply IZR_lt; lia).
        assert (LIN : (height f (IZR x) - height e (IZR x) = (height f a - height e a) + (IZR x - a) / (b - a) * ((height f b - height e b) - (height f a - height e a)))%R).
        { pose proof (height_between f a b ((IZR x - a) / (b - a))) as W1. pose proof (height_between e a b ((IZR x - a) / (b - a))) as W2.
          replace (a + (IZR x - a) / (b - a) * (b - a))%R with (IZR x) in W1, W2 by (field; lra). rewrite W1, W2. ring. }
        set (t := ((IZR x - a) / (b - a))%R) in *.
        assert (T : (0 < t < 1)%R).
        { unfold t. split; [apply Rmult_lt_0_compat; [lra|apply Rinv_0_lt_compat; lra]|]. apply Rmult_lt_reg_r with (b - a)%R; [lra|]. unfold Rdiv. rewrite Rmult_assoc, Rinv_l by lra. lra. }
        assert (HA : height f a = IZR (py (s_low f))) by (unfold a; apply height_low). rewrite <- HA.
        destruct (oab_cases _ f E2 Ff Lf) as [C|[C|C]], (oab_cases _ f E1 Ff Lf) as [D|[D|D]]; try congruence.
        * exfalso. apply O0 in D. lra.
        * apply P1 in C. apply O2 in D. split; intros R; [|lra]. exfalso. nra.
        * apply P0 in C. apply O1 in D. split; intros R; [exact D|]. nra.
        * apply P0 in C. apply O2 in D. split; intros R; [|lra]. exfalso. nra.
        * apply P2 in C. apply O1 in D. split; intros R; [exact D|]. nra.
        * exfalso. apply O0 in D. lra.
    - (* f begins at x *)
      assert (IE0 : inr e (IZR x)) by (split; apply IZR_lt; lia).
      assert (NE : height e (IZR x) <> IZR (py (s_low f))).
      { intros Q. assert (f = e) as ->; [|lia]. apply (touch E nod ord e f (IZR x) He Hf IE0). rewrite Q, Xf. apply on_low. }
      rewrite <- Xf in Hf0.
      pose proof (oab_1 _ e F1 Fe Le) as O1. rewrite <- Xf in O1. rewrite <- Hf0 in O1, NE.
      assert (LT : lte e f <-> sb_oab (s_low f) e = 1).
      { rewrite O1. split; [|apply ORD]. intros Q. destruct (Rtotal_order (height e (IZR x)) (height f (IZR x))) as [R|[R|R]]; [exact R|lra|]. exfalso. apply (ORD' R Q). }
      destruct (Z.eqb_spec (sb_oab (s_low e) f) (sb_oab (s_high e) f)) as [Q|Q].
      + exists (sb_oab (s_low e) f =? -1). split; [reflexivity|]. rewrite Z.eqb_eq, LT, O1. clear LT.
        pose proof (oab_m1 _ f E1 Ff Lf) as P1. pose proof (oab_1 _ f E1 Ff Lf) as P2. pose proof (oab_0 _ f E1 Ff Lf) as P0. rewrite <- He0 in P1, P2, P0.
        pose proof (oab_m1 _ f E2 Ff Lf) as R1. pose proof (oab_1 _ f E2 Ff Lf) as R2. pose proof (oab_0 _ f E2 Ff Lf) as R0. rewrite <- (height_high e Le) in R1, R2, R0.
        set (a := IZR (px (s_low e))) in *. set (b := IZR (px (s_high e))) in *. destruct IE0 as [AX BX]. fold a in AX. fold b in BX.
        assert (LIN : (height f (IZR x) - height e (IZR x) = (height f a - height e a) + (IZR x - a) / (b - a) * ((height f b - height e b) - (height f a - height e a)))%R).
        { pose proof (height_between f a b ((IZR x - a) / (b - a))) as W1. pose proof (height_between e a b ((IZR x - a) / (b - a))) as W2.
          replace (a + (IZR x - a) / (b - a) * (b - a))%R with (IZR x) in W1, W2 by (field; lra). rewrite W1, W2. ring. }
        set (t := ((IZR x - a) / (b - a))%R) in *.
        assert (T : (0 < t < 1)%R).
        { unfold t. split; [apply Rmult_lt_0_compat; [lra|apply Rinv_0_lt_compat; lra]|]. apply Rmult_lt_reg_r with (b - a)%R; [lra|]. unfold Rdiv. rewrite Rmult_assoc, Rinv_l by lra. lra. }
        destruct (oab_cases _ f E1 Ff Lf) as [C|[C|C]]; rewrite C in Q; symmetry in Q; rewrite C.
        * apply P1 in C. apply R1 in Q. split; [intros _; nra|reflexivity].
        * exfalso. apply P0 in C. apply R0 in Q. apply NE. nra.
        * apply P2 in C. apply R2 in Q. split; [discriminate|]. intros Q2. exfalso. nra.
      + exists (sb_oab (s_low f) e =? 1). split; [reflexivity|]. rewrite Z.eqb_eq. symmetry. exact LT.
    - exfalso. destruct N; congruence.
  Qed.
End order.
