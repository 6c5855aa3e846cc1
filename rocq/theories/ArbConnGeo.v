(* connectivity_extraction: two nodes are on edges with a common end if and only if their
   regions touch. *)
From Verif Require Import Base Units Outcome Scan90Spec Poly90Spec Poly90Model Poly90Proofs GeoSpec IvlModel RectModel SegModel PolySpec PolyModel PolyEdge ScanBaseModel SnapModel SnapSpec SnapProofs ArbSpec ArbOrder ArbSums ArbModel ArbMaps ArbLess ArbLine ArbColumn ArbScan ArbBool ArbResult ArbSnap ArbSetModel ArbMergeSpec ArbMergeModel ArbConnModel ArbMergeProofs ArbConnScan.
From Coq Require Import Reals Lra Sorting.Sorted Sorting.Permutation Classical.

Local Open Scope R_scope.
(* ---------- a point that is not on a segment has a neighbourhood without the segment ---------- *)
Definition slope (s : seg) : R := (IZR (py (s_high s)) - IZR (py (s_low s))) / (IZR (px (s_high s)) - IZR (px (s_low s))).
Lemma height_slope s x x' : height s x' = height s x + (x' - x) * slope s.
Proof. unfold height, slope. ring. Qed.
Definition free (s : seg) (x y d : R) : Prop := forall x' y', on_r s x' y' -> ~ (Rabs (x' - x) < d /\ Rabs (y' - y) < d).
Lemma on_box s x y : ordered s -> on_r s x y -> IZR (px (s_low s)) <= x <= IZR (px (s_high s)).
Proof. intros O [t [T [X _]]]. apply ordered_iff in O. assert (IZR (px (s_low s)) <= IZR (px (s_high s))) by (apply IZR_le; lia). nra. Qed.
Lemma on_vert_inv s x y : ordered s -> vertical_edge s = true -> on_r s x y -> x = IZR (px (s_low s)) /\ IZR (py (s_low s)) <= y <= IZR (py (s_high s)).
Proof.
  intros O V [t [T [X Y]]]. apply vertical_edge_iff in V. apply ordered_iff in O. assert (L : IZR (py (s_low s)) <= IZR (py (s_high s))) by (apply IZR_le; lia). rewrite V in *. split; nra.
Qed.
Lemma seg_gap s x y : ordered s -> ~ on_r s x y -> exists d, 0 < d /\ free s x y d.
Proof.
  intros O N. destruct (Rlt_dec x (IZR (px (s_low s)))) as [A|A].
  { exists (IZR (px (s_low s)) - x). split; [lra|]. intros x' y' ON [B _]. apply (on_box s x' y' O) in ON. apply Rabs_def2 in B. lra. }
  destruct (Rlt_dec (IZR (px (s_high s))) x) as [A'|A'].
  { exists (x - IZR (px (s_high s))). split; [lra|]. intros x' y' ON [B _]. apply (on_box s x' y' O) in ON. apply Rabs_def2 in B. lra. }
  destruct (vertical_edge s) eqn:V.
  - pose proof V as VE. apply vertical_edge_iff in VE. assert (X : x = IZR (px (s_low s))) by (rewrite VE in *; lra).
    destruct (Rlt_dec y (IZR (py (s_low s)))) as [B|B].
    { exists (IZR (py (s_low s)) - y). split; [lra|]. intros x' y' ON [_ C]. apply (on_vert_inv s x' y' O V) in ON. apply Rabs_def2 in C. lra. }
    destruct (Rlt_dec (IZR (py (s_high s))) y) as [B'|B'].
    { exists (y - IZR (py (s_high s))). split; [lra|]. intros x' y' ON [_ C]. apply (on_vert_inv s x' y' O V) in ON. apply Rabs_def2 in C. lra. }
    exfalso. apply N. rewrite X. apply on_vertical; [exact V|lra].
  - pose proof (nv_lt s O V) as NV. assert (G : height s x <> y) by (intros G; apply N; rewrite <- G; apply on_height; [exact NV|unfold inc; lra]).
    set (m := Rabs (slope s)). assert (M : 0 <= m) by apply Rabs_pos. set (g := Rabs (height s x - y)). assert (GP : 0 < g) by (apply Rabs_pos_lt; lra).
    exists (g / (1 + m)). assert (D : g / (1 + m) * (1 + m) = g) by (field; lra). assert (DP : 0 < g / (1 + m)) by (apply Rdiv_lt_0_compat; lra). split; [exact DP|]. intros x' y' ON [B C]. apply (on_height_inv _ _ _ NV) in ON as [_ ->].
    rewrite (height_slope s x x') in C. assert (K : Rabs ((x' - x) * slope s) <= g / (1 + m) * m) by (rewrite Rabs_mult; fold m; apply Rmult_le_compat_r; lra).
    assert (T : g <= Rabs (height s x + (x' - x) * slope s - y) + Rabs ((x' - x) * slope s)).
    { unfold g. replace (height s x - y) with ((height s x + (x' - x) * slope s - y) - (x' - x) * slope s) by ring. unfold Rminus at 1. eapply Rle_trans; [apply Rabs_triang|]. rewrite Rabs_Ropp. lra. }
    lra.
Qed.
Lemma list_gap (ss : list seg) x y : (forall s, In s ss -> ordered s) -> (forall s, In s ss -> ~ on_r s x y) -> exists d, 0 < d /\ forall s, In s ss -> free s x y d.
Proof.
  induction ss as [|s ss IH]; intros O N; [exists 1; split; [lra|]; intros s []|]. destruct IH as [d [D F]]; [intros t T; apply O; right; exact T|intros t T; apply N; right; exact T|].
  destruct (seg_gap s x y (O s (or_introl eq_refl)) (N s (or_introl eq_refl))) as [d' [D' F']]. exists (Rmin d d'). pose proof (Rmin_l d d') as M1. pose proof (Rmin_r d d') as M2. split; [apply Rmin_glb_lt; assumption|].
  intros t [<-|T] x' y' ON [A B]; [apply (F' x' y' ON); lra|apply (F t T x' y' ON); lra].
Qed.

(* ---------- the depth does not change where there are no edges ---------- *)
Lemma same_side s a b y : a <= b -> (forall z, a <= z <= b -> height s z <> y) -> (forall z, a <= z <= b -> height s z < y) \/ (forall z, a <= z <= b -> y < height s z).
Proof.
  intros AB N. destruct (Rlt_dec (height s a) y) as [H|H].
  - left. intros z Z. apply Rnot_le_lt. intros K. destruct (height_mid s a z y) as [c [C1 C2]]; [left; lra|lra|]. apply (N c); [lra|exact C2].
  - right. assert (height s a <> y) by (apply N; lra). intros z Z. apply Rnot_le_lt. intros K. destruct (height_mid s a z y) as [c [C1 C2]]; [right; lra|lra|]. apply (N c); [lra|exact C2].
Qed.
Section const.
  Variable l : list vprop.
  Hypothesis ord : forall e, In e l -> ordered (fst e).
  Hypothesis clo : closed l.
  Definition P_h (x1 x2 y : R) (v : point) : bool := rltb x1 (IZR (px v)) && rleb (IZR (px v)) x2 && rltb (IZR (py v)) y.
  Lemma hor_edge s x1 x2 y : ordered s -> vertical_edge s = false -> x1 <= x2 -> (forall x', x1 <= x' <= x2 -> ~ on_r s x' y) ->
    (b01 (spans_r s x2 && rltb (height s x2) y) - b01 (spans_r s x1 && rltb (height s x1) y) = b01 (P_h x1 x2 y (s_low s)) - b01 (P_h x1 x2 y (s_high s)))%Z.
  Proof.
    intros O V XX N. pose proof (nv_lt s O V) as NV. pose proof (IZR_lt _ _ NV) as NR. set (lo := IZR (px (s_low s))) in *. set (hi := IZR (px (s_high s))) in *.
    assert (HL : height s lo = IZR (py (s_low s))) by apply height_low. assert (HH : height s hi = IZR (py (s_high s))) by (apply height_high, NV).
    unfold P_h, spans_r. fold lo hi. rewrite <- HL, <- HH. unfold rltb, rleb.
    destruct (Rlt_dec hi x1) as [A|A]; [|destruct (Rlt_dec x2 lo) as [B|B]].
    - destruct (Rle_dec lo x2), (Rlt_dec x2 hi), (Rle_dec lo x1), (Rlt_dec x1 hi), (Rlt_dec x1 lo); try lra; cbn [andb b01]; destruct (Rle_dec hi x2); cbn [andb b01]; lia.
    - destruct (Rle_dec lo x2), (Rlt_dec x2 hi), (Rle_dec lo x1), (Rlt_dec x1 hi), (Rlt_dec x1 lo), (Rle_dec hi x2); try lra; cbn [andb b01]; rewrite ?andb_false_r; cbn [b01]; lia.
    - set (a := Rmax lo x1). set (b := Rmin hi x2). assert (AB : a <= b) by (unfold a, b; apply Rmax_lub; apply Rmin_glb; lra).
      assert (IA : forall z, lo <= z <= hi -> x1 <= z <= x2 -> a <= z <= b) by (intros z Z1 Z2; unfold a, b; split; [apply Rmax_lub; lra|apply Rmin_glb; lra]).
      assert (IB : forall z, a <= z <= b -> lo <= z <= hi /\ x1 <= z <= x2).
      { intros z Z. unfold a, b in Z. pose proof (Rmax_l lo x1). pose proof (Rmax_r lo x1). pose proof (Rmin_l hi x2). pose proof (Rmin_r hi x2). lra. }
      destruct (same_side s a b y AB) as [S|S].
      { intros z Z E. destruct (IB z Z) as [Z1 Z2]. apply (N z Z2). rewrite <- E. apply on_height; [exact NV|exact Z1]. }
      + destruct (Rle_dec lo x2), (Rlt_dec x2 hi), (Rle_dec lo x1), (Rlt_dec x1 hi), (Rlt_dec x1 lo), (Rle_dec hi x2), (Rlt_dec x1 hi); try lra; cbn [andb b01];
          repeat match goal with |- context [Rlt_dec (height s ?z) y] => destruct (Rlt_dec (height s z) y) as [?|Q]; [|exfalso; apply Q, S, IA; lra] end; cbn [b01]; lia.
      + destruct (Rle_dec lo x2), (Rlt_dec x2 hi), (Rle_dec lo x1), (Rlt_dec x1 hi), (Rlt_dec x1 lo), (Rle_dec hi x2), (Rlt_dec x1 hi); try lra; cbn [andb b01];
          repeat match goal with |- context [Rlt_dec (height s ?z) y] => destruct (Rlt_dec (height s z) y) as [Q|?]; [exfalso; assert (y < height s z) by (apply S, IA; lra); lra|] end; cbn [b01]; lia.
  Qed.
  Lemma depth_hor k x1 x2 y : x1 <= x2 -> (forall e x', In e l -> x1 <= x' <= x2 -> ~ on_r (fst e) x' y) -> depth_below l k x1 y = depth_below l k x2 y.
  Proof.
    intros XX N. symmetry. apply Z.sub_move_0_r. unfold depth_below. rewrite <- tot_sub. pose proof (closed_pred l clo k (P_h x1 x2 y)) as C. apply Z.sub_move_0_r in C. rewrite <- tot_sub in C. etransitivity; [|exact C]. apply tot_ext. intros e He. pose proof (ord e He) as O.
    destruct (vertical_edge (fst e)) eqn:V.
    - assert (S : forall z, spans_r (fst e) z = false) by (intros z; apply not_true_iff_false; intros K; apply spans_r_nv in K; congruence). rewrite !S. cbn [andb].
      assert (P_h x1 x2 y (s_low (fst e)) = P_h x1 x2 y (s_high (fst e))) as ->; [|lia]. pose proof V as VE. apply vertical_edge_iff in VE. apply ordered_iff in O. assert (L : (py (s_low (fst e)) < py (s_high (fst e)))%Z) by lia. apply IZR_lt in L. unfold P_h. rewrite VE. apply ArbSums.bool_eq. rewrite !andb_true_iff, !rltb_iff, !rleb_iff. split; [|intros [[A B] D]; repeat split; lra].
      intros [[A B] D]. split; [split; lra|]. apply Rnot_le_lt. intros K. apply (N e (IZR (px (s_high (fst e))))); [exact He|lra|]. rewrite <- VE. apply on_vertical; [exact V|lra].
    - pose proof (hor_edge (fst e) x1 x2 y O V XX (fun x' X => N e x' He X)) as H. unfold along. cbv beta. rewrite V. unfold b01 in H. revert H. destruct (spans_r _ x2 && _), (spans_r _ x1 && _), (P_h _ _ _ (s_low _)), (P_h _ _ _ (s_high _)); intros H; lia.
  Qed.
  Lemma depth_ver k x y1 y2 : y1 <= y2 -> (forall e y', In e l -> y1 <= y' <= y2 -> ~ on_r (fst e) x y') -> depth_below l k x y1 = depth_below l k x y2.
  Proof.
    intros YY N. apply tot_ext. intros e He. destruct (spans_r (fst e) x) eqn:S; cbn [andb]; [|reflexivity]. assert (rltb (height (fst e) x) y1 = rltb (height (fst e) x) y2) as ->; [|reflexivity].
    apply spans_r_iff in S. apply ArbSums.bool_eq. rewrite !rltb_iff. split; [lra|]. intros K. apply Rnot_le_lt. intros J. apply (N e (height (fst e) x) He); [lra|]. apply on_height; [apply lt_IZR; lra|unfold inc; lra].
  Qed.
  Lemma depth_box k x y d : (forall e, In e l -> free (fst e) x y d) -> forall x1 y1 x2 y2, Rabs (x1 - x) < d -> Rabs (y1 - y) < d -> Rabs (x2 - x) < d -> Rabs (y2 - y) < d -> depth_below l k x1 y1 = depth_below l k x2 y2.
  Proof.
    intros F. assert (V : forall x1 y1 y2, Rabs (x1 - x) < d -> Rabs (y1 - y) < d -> Rabs (y2 - y) < d -> depth_below l k x1 y1 = depth_below l k x1 y2).
    { assert (V : forall x1 y1 y2, y1 <= y2 -> Rabs (x1 - x) < d -> Rabs (y1 - y) < d -> Rabs (y2 - y) < d -> depth_below l k x1 y1 = depth_below l k x1 y2).
      { intros x1 y1 y2 L A B C. apply depth_ver; [exact L|]. intros e y' He Y ON. apply (F e He x1 y' ON). split; [exact A|]. apply Rabs_def2 in B, C. apply Rabs_def1; lra. }
      intros x1 y1 y2 A B C. destruct (Rle_dec y1 y2); [apply V; assumption|symmetry; apply V; try assumption; lra]. }
    assert (H : forall x1 x2 y1, Rabs (x1 - x) < d -> Rabs (x2 - x) < d -> Rabs (y1 - y) < d -> depth_below l k x1 y1 = depth_below l k x2 y1).
    { assert (H : forall x1 x2 y1, x1 <= x2 -> Rabs (x1 - x) < d -> Rabs (x2 - x) < d -> Rabs (y1 - y) < d -> depth_below l k x1 y1 = depth_below l k x2 y1).
      { intros x1 x2 y1 L A B C. apply depth_hor; [exact L|]. intros e x' He X ON. apply (F e He x' y1 ON). split; [|exact C]. apply Rabs_def2 in A, B. apply Rabs_def1; lra. }
      intros x1 x2 y1 A B C. destruct (Rle_dec x1 x2); [apply H; assumption|symmetry; apply H; try assumption; lra]. }
    intros x1 y1 x2 y2 A B C D. rewrite (V x1 y1 y2 A B D). apply H; assumption.
  Qed.
  (* just above, and just to the left *)
  Lemma just_above k x h : exists d, 0 < d /\ forall y, h < y <= h + d -> depth_below l k x y = depth_above l k x h.
  Proof.
    clear ord clo. unfold depth_below, depth_above. induction l as [|e m [d [D H]]]; [exists 1; split; [lra|]; reflexivity|]. destruct (Rlt_dec h (height (fst e) x)) as [A|A].
    - exists (Rmin d (height (fst e) x - h)). pose proof (Rmin_l d (height (fst e) x - h)). pose proof (Rmin_r d (height (fst e) x - h)). split; [apply Rmin_glb_lt; lra|]. intros y Y. cbn [tot]. rewrite H by lra.
      assert (rltb (height (fst e) x) y = false) as -> by (apply not_true_iff_false; rewrite rltb_iff; lra). assert (rleb (height (fst e) x) h = false) as -> by (apply not_true_iff_false; rewrite rleb_iff; lra). reflexivity.
    - exists d. split; [exact D|]. intros y Y. cbn [tot]. rewrite H by lra. assert (rltb (height (fst e) x) y = true) as -> by (apply rltb_iff; lra). assert (rleb (height (fst e) x) h = true) as -> by (apply rleb_iff; lra). reflexivity.
  Qed.
  Lemma just_left k X y : (forall e, In e l -> spans_l (fst e) X = true -> height (fst e) X <> y) -> exists d, 0 < d /\ forall x, X - d < x < X -> depth_below l k x y = depth_below_left l k X y.
  Proof.
    clear clo. unfold depth_below, depth_below_left. induction l as [|e m IH]; intros N; [exists 1; split; [lra|]; reflexivity|]. destruct IH as [d [D H]]; [intros f F; apply ord; right; exact F|intros f F; apply N; right; exact F|].
    pose proof (ord e (or_introl eq_refl)) as O. apply ordered_iff in O. assert (LH : IZR (px (s_low (fst e))) <= IZR (px (s_high (fst e)))) by (apply IZR_le; lia).
    assert (Q : exists d', 0 < d' /\ forall x, X - d' < x < X -> spans_r (fst e) x && rltb (height (fst e) x) y = spans_l (fst e) X && rltb (height (fst e) X) y).
    { destruct (spans_l (fst e) X) eqn:S.
      - specialize (N e (or_introl eq_refl) S). apply spans_l_iff in S. set (m' := Rabs (slope (fst e))). set (g := Rabs (height (fst e) X - y)). assert (M : 0 <= m') by apply Rabs_pos. assert (G : 0 < g) by (apply Rabs_pos_lt; lra).
        assert (GP : 0 < g / (1 + m')) by (apply Rdiv_lt_0_compat; lra). assert (GM : g / (1 + m') * (1 + m') = g) by (field; lra).
        exists (Rmin (X - IZR (px (s_low (fst e)))) (g / (1 + m'))). pose proof (Rmin_l (X - IZR (px (s_low (fst e)))) (g / (1 + m'))). pose proof (Rmin_r (X - IZR (px (s_low (fst e)))) (g / (1 + m'))). split; [apply Rmin_glb_lt; lra|]. intros x Hx.
        assert (spans_r (fst e) x = true) as -> by (apply spans_r_iff; lra). cbn [andb]. rewrite (height_slope (fst e) X x).
        assert (K : Rabs ((x - X) * slope (fst e)) < g). { rewrite Rabs_mult. fold m'. rewrite (Rabs_left (x - X)) by lra. nra. }
        apply Rabs_def2 in K. unfold g in K. apply ArbSums.bool_eq. rewrite !rltb_iff. unfold Rabs in K. destruct (Rcase_abs (height (fst e) X - y)); lra.
      - destruct (Rlt_dec (IZR (px (s_high (fst e)))) X) as [A|A].
        + exists (X - IZR (px (s_high (fst e)))). split; [lra|]. intros x Hx. assert (spans_r (fst e) x = false) as ->; [|reflexivity]. apply not_true_iff_false. rewrite spans_r_iff. lra.
        + exists 1. split; [lra|]. intros x Hx. assert (spans_r (fst e) x = false) as ->; [|reflexivity]. apply not_true_iff_false. intros K. apply spans_r_iff in K. apply not_true_iff_false in S. apply S, spans_l_iff. lra. }
    destruct Q as [d' [D' H']]. exists (Rmin d d'). pose proof (Rmin_l d d'). pose proof (Rmin_r d d'). split; [apply Rmin_glb_lt; assumption|]. intros x Hx. cbn [tot]. rewrite H, H' by lra. reflexivity.
  Qed.
End const.
Local Close Scope R_scope.
