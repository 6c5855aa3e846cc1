(* intersects_grid tells exactly whether the segment passes the half-open unit
   square. *)
From Verif Require Import Base Units Outcome Scan90Spec Poly90Spec Poly90Model Poly90Proofs.
From Verif Require Import Set90Spec Set90Model GeoSpec IvlModel IvlProofs RectModel RectProofs SegModel SegProofs PolySpec PolyModel PolyEdge ScanBaseModel ScanBaseOab.
From Verif Require Import SnapMove SnapNode SnapModel SnapChain ScanBaseProofs.
From Coq Require Import Reals Lra Psatz.
Local Open Scope R_scope.

Lemma passes_pt s p : ron (s_low s) (s_high s) (IZR (px p)) (IZR (py p)) -> passes s p.
Proof. intros H. eexists _, _. split; [exact H|apply pixel_self]. Qed.
Lemma passes_box s p : passes s p -> inbox s p.
Proof.
  intros [x [y [R [X Y]]]]. apply ron_box in R. rewrite !Rmin_IZR, !Rmax_IZR in R. destruct R as [[A B] [C D]]. unfold inbox.
  assert (F : forall m a z, IZR m <= z -> IZR a <= z < IZR a + 1 -> (m <= a)%Z).
  { intros m a z H [K L]. assert (IZR m < IZR (a + 1)) as H1 by (rewrite plus_IZR; lra). apply lt_IZR in H1. lia. }
  assert (G : forall m a z, z <= IZR m -> IZR a <= z < IZR a + 1 -> (a <= m)%Z).
  { intros m a z H [K L]. apply le_IZR. lra. }
  repeat split; eauto.
Qed.
(* a lattice point in a pixel *)
Lemma pixel_lattice p e : pixel p (IZR (px e)) (IZR (py e)) -> e = p.
Proof.
  intros [[A B] [C D]]. rewrite <- plus_IZR in B, D. apply le_IZR in A, C. apply lt_IZR in B, D. destruct p as [a b], e as [c d]. cbn [px py] in *. f_equal; lia.
Qed.
Lemma pixel_conv p x y x' y' t : pixel p x y -> pixel p x' y' -> unit t -> pixel p (x + t * (x' - x)) (y + t * (y' - y)).
Proof.
  intros [A B] [C D] T.
  assert (X := conv (x - IZR (px p)) (x' - IZR (px p)) t ltac:(lra) ltac:(lra) T). assert (Y := conv (y - IZR (py p)) (y' - IZR (py p)) t ltac:(lra) ltac:(lra) T).
  unfold pixel. lra.
Qed.
(* a point of the line of s in the pixel is on s, if s passes the pixel and does not end in it *)
Lemma line_in_pixel s p x y r1 r2 : s_low s <> p -> s_high s <> p -> s_low s <> s_high s -> ron (s_low s) (s_high s) x y -> pixel p x y -> pixel p r1 r2 ->
  orient (IZR (px (s_low s))) (IZR (py (s_low s))) (IZR (px (s_high s))) (IZR (py (s_high s))) r1 r2 = 0 -> ron (s_low s) (s_high s) r1 r2.
Proof.
  intros NL NH ND [t [T [E F]]] P R O.
  assert (N' : IZR (px (s_low s)) <> IZR (px (s_high s)) \/ IZR (py (s_low s)) <> IZR (py (s_high s))).
  { destruct (Req_dec (IZR (px (s_low s))) (IZR (px (s_high s)))); [|left; assumption]. destruct (Req_dec (IZR (py (s_low s))) (IZR (py (s_high s)))); [|right; assumption]. exfalso. apply ND. apply pt_eq_r; assumption. }
  destruct (on_line_r _ _ _ _ _ _ N' O) as [g [G1 G2]]. exists g. split; [|split; symmetry; assumption].
  unfold unit in *.
  destruct (Rlt_dec g 0) as [L|L].
  { exfalso. apply NL. apply pixel_lattice. assert (TP : unit (t / (t - g))) by (apply ratio_unit; nra).
    replace (IZR (px (s_low s))) with (x + t / (t - g) * (r1 - x)) by (rewrite G1, <- E; field; lra).
    replace (IZR (py (s_low s))) with (y + t / (t - g) * (r2 - y)) by (rewrite G2, <- F; field; lra).
    apply pixel_conv; assumption. }
  destruct (Rlt_dec 1 g) as [L1|L1].
  { exfalso. apply NH. apply pixel_lattice. assert (TP : unit ((t - 1) / ((t - 1) - (g - 1)))) by (apply ratio_unit; nra).
    replace (IZR (px (s_high s))) with (x + (t - 1) / ((t - 1) - (g - 1)) * (r1 - x)) by (rewrite G1, <- E; field; lra).
    replace (IZR (py (s_high s))) with (y + (t - 1) / ((t - 1) - (g - 1)) * (r2 - y)) by (rewrite G2, <- F; field; lra).
    apply pixel_conv; assumption. }
  lra.
Qed.
(* a diagonal of the pixel that has its ends strictly on both sides *)
Lemma diagonal_hit s p u v x y : seg_int s -> pt_int u -> pt_int v -> s_low s <> p -> s_high s <> p -> s_low s <> s_high s ->
  ron (s_low s) (s_high s) x y -> pixel p x y ->
  (forall t, 0 < t < 1 -> pixel p (at_x (mk_seg u v) t) (at_y (mk_seg u v) t) /\ ~ pixel p (at_x (mk_seg u v) t) (at_y (mk_seg u v) t) \/
     (IZR (px p) < at_x (mk_seg u v) t < IZR (px p) + 1 /\ IZR (py p) < at_y (mk_seg u v) t < IZR (py p) + 1)) ->
  (side s u * side s v < 0)%Z -> sb_intersects (mk_seg u v) s = true.
Proof.
  intros IS IU IV NL NH ND R P DI M. apply IZR_lt in M. rewrite side_mul_r in M.
  set (g := rorient (s_low s) (s_high s) u) in *. set (h := rorient (s_low s) (s_high s) v) in *.
  assert (GH : g <> h) by (intros E; rewrite E in M; nra).
  set (t := g / (g - h)).
  assert (T : 0 < t < 1).
  { assert (T0 : unit t) by (apply ratio_unit; lra). unfold unit in T0.
    assert (TE : t * (g - h) = g) by (unfold t; field; lra).
    destruct (Req_dec t 0) as [Z0|Z0]; [rewrite Z0 in TE; assert (g = 0) by lra; rewrite H in M; lra|].
    destruct (Req_dec t 1) as [Z1|Z1]; [rewrite Z1 in TE; assert (h = 0) by lra; rewrite H in M; lra|]. lra. }
  assert (DT : IZR (px p) < at_x (mk_seg u v) t < IZR (px p) + 1 /\ IZR (py p) < at_y (mk_seg u v) t < IZR (py p) + 1) by (destruct (DI t T) as [[? ?]|?]; [contradiction|assumption]).
  assert (PR : pixel p (at_x (mk_seg u v) t) (at_y (mk_seg u v) t)) by (unfold pixel; lra).
  assert (OR : orient (IZR (px (s_low s))) (IZR (py (s_low s))) (IZR (px (s_high s))) (IZR (py (s_high s))) (at_x (mk_seg u v) t) (at_y (mk_seg u v) t) = 0).
  { replace (orient (IZR (px (s_low s))) (IZR (py (s_low s))) (IZR (px (s_high s))) (IZR (py (s_high s))) (at_x (mk_seg u v) t) (at_y (mk_seg u v) t)) with (g - t * (g - h)) by (unfold g, h, rorient, orient, at_x, at_y; cbn [s_low s_high]; ring).
    unfold t. field. lra. }
  assert (RS := line_in_pixel s p x y _ _ NL NH ND R P PR OR).
  assert (NI : forall e, ~ is_pt e (at_x (mk_seg u v) t) (at_y (mk_seg u v) t)).
  { intros e [E1 E2]. destruct DT as [[A B] [C D]]. rewrite E1 in A, B. rewrite <- plus_IZR in B. apply lt_IZR in A, B. lia. }
  apply (intersects_complete _ _ (at_x (mk_seg u v) t) (at_y (mk_seg u v) t)); try assumption.
  - split; assumption.
  - intros C. apply GH. assert (E : rcross (mk_seg u v) s = g - h) by (unfold rcross, g, h, rorient, orient; cbn [s_low s_high]; ring). lra.
  - split; [apply (at_ron (mk_seg u v)); lra|exact RS].
  - intros [E|E]; exact (NI _ E).
  - intros [E|E]; exact (NI _ E).
Qed.
Theorem grid_exact p s : pt_int p -> seg_int s -> (px p < INT_MAX)%Z -> (py p < INT_MAX)%Z ->
  exists b, sb_grid p s = Ok b /\ (b = true <-> passes s p).
Proof.
  intros IP IS BX BY. pose proof IS as [IL IH]. unfold sb_grid.
  destruct (pt_eqb p (s_high s)) eqn:E1.
  { apply pt_eqb_iff in E1. exists true. split; [reflexivity|]. split; [intros _|reflexivity]. apply passes_pt. rewrite E1. apply ron_high. }
  destruct (pt_eqb p (s_low s)) eqn:E2.
  { apply pt_eqb_iff in E2. exists true. split; [reflexivity|]. split; [intros _|reflexivity]. apply passes_pt. rewrite E2. apply ron_low. }
  assert (NH : p <> s_high s) by (intros E; rewrite E, pt_eqb_refl in E1; discriminate).
  assert (NL : p <> s_low s) by (intros E; rewrite E, pt_eqb_refl in E2; discriminate).
  destruct (r_contains_pt (seg_box s) p true) eqn:E3; cbn [negb].
  2:{ exists false. split; [reflexivity|]. split; [discriminate|]. intros H. apply passes_box, contains_box in H. congruence. }
  apply contains_box in E3.
  assert (ND : s_low s <> s_high s).
  { intros E. unfold inbox in E3. rewrite E in *. apply pt_ne in NH. lia. }
  destruct (sb_vertical s || sb_horizontal s) eqn:E4.
  { exists true. split; [reflexivity|]. split; [intros _|reflexivity]. apply passes_pt. apply pt_on; try assumption.
    unfold inbox in E3. unfold side, cross. cbn [s_low s_high]. apply orb_true_iff in E4. unfold sb_vertical, sb_horizontal in E4. rewrite !Z.eqb_eq in E4.
    destruct E4 as [E4|E4]; rewrite E4 in *; assert (HH : forall a b, (a - a = b - b)%Z) by (intros; lia).
    - assert (px p = px (s_high s)) as -> by lia. ring.
    - assert (py p = py (s_high s)) as -> by lia. ring. }
  assert (ES := equal_slope_spec p (s_low s) (s_high s) IP IL IH). rewrite seg_eta in ES.
  destruct (eu_equal_slope p (s_low s) (s_high s) && sb_between p s) eqn:E5.
  { exists true. split; [reflexivity|]. split; [intros _|reflexivity]. apply andb_true_iff in E5 as [E5 _]. apply ES in E5. apply passes_pt. apply pt_on; assumption. }
  assert (S0 : (side s p <> 0)%Z).
  { intros K. assert (K' := K). apply ES in K. rewrite K in E5. cbn [andb] in E5. rewrite box_between in E5; try assumption. discriminate. }
  destruct IP as [[P1 P2] [P3 P4]].
  assert (C1 : chk (px p + 1) = Ok (px p + 1)%Z) by (unfold chk; rewrite (proj2 (Z.leb_le _ _)), (proj2 (Z.leb_le _ _)); [reflexivity|lia|lia]).
  assert (C2 : chk (py p + 1) = Ok (py p + 1)%Z) by (unfold chk; rewrite (proj2 (Z.leb_le _ _)), (proj2 (Z.leb_le _ _)); [reflexivity|lia|lia]).
  rewrite C1, C2. cbn [obind]. set (p01 := mk_pt (px p) (py p + 1)). set (p10 := mk_pt (px p + 1) (py p)). set (p11 := mk_pt (px p + 1) (py p + 1)).
  assert (IP : pt_int p) by (unfold pt_int, is_int; lia).
  assert (I01 : pt_int p01) by (unfold pt_int, is_int, p01; cbn [px py]; lia).
  assert (I10 : pt_int p10) by (unfold pt_int, is_int, p10; cbn [px py]; lia).
  assert (I11 : pt_int p11) by (unfold pt_int, is_int, p11; cbn [px py]; lia).
  rewrite !sb_oab_eq by assumption.
  assert (ZB : forall q, negb (Z.sgn (up_side s q) =? 0)%Z = true <-> (side s q <> 0)%Z).
  { intros q. rewrite negb_true_iff, Z.eqb_neq. rewrite <- up_side_zero. lia. }
  assert (PX : IZR (px p + 1) = IZR (px p) + 1) by (rewrite plus_IZR; reflexivity). assert (PY : IZR (py p + 1) = IZR (py p) + 1) by (rewrite plus_IZR; reflexivity).
  (* soundness of the diagonals *)
  assert (SD : sb_intersects (mk_seg p p11) s = true -> (side s p11 <> 0)%Z -> passes s p).
  { intros H K. destruct (intersects_sound (mk_seg p p11) s ltac:(split; assumption) IS H) as [x [y [[t [T [X Y]]] R]]].
    exists x, y. split; [exact R|]. cbn [s_low s_high] in X, Y. unfold p11 in X, Y. cbn [px py] in X, Y. rewrite PX in X. rewrite PY in Y.
    unfold unit in T. assert (T1 : t <> 1).
    { intros ->. apply K. apply (on_pt s p11). unfold p11. cbn [px py]. rewrite PX, PY. replace (IZR (px p) + 1) with x by lra. replace (IZR (py p) + 1) with y by lra. exact R. }
    unfold pixel. lra. }
  assert (SA : sb_intersects (mk_seg p01 p10) s = true -> (side s p01 <> 0)%Z -> (side s p10 <> 0)%Z -> passes s p).
  { intros H K K'. destruct (intersects_sound (mk_seg p01 p10) s ltac:(split; assumption) IS H) as [x [y [[t [T [X Y]]] R]]].
    exists x, y. split; [exact R|]. cbn [s_low s_high] in X, Y. unfold p01, p10 in X, Y. cbn [px py] in X, Y. rewrite PX in X. rewrite PY in Y.
    unfold unit in T. assert (T1 : t <> 1).
    { intros ->. apply K'. apply (on_pt s p10). unfold p10. cbn [px py]. rewrite PX. replace (IZR (px p) + 1) with x by lra. replace (IZR (py p)) with y by lra. exact R. }
    assert (T0 : t <> 0).
    { intros ->. apply K. apply (on_pt s p01). unfold p01. cbn [px py]. rewrite PY. replace (IZR (py p) + 1) with y by lra. replace (IZR (px p)) with x by lra. exact R. }
    unfold pixel. lra. }
  (* completeness *)
  assert (CO : passes s p -> (sb_intersects (mk_seg p p11) s = true /\ (side s p11 <> 0)%Z) \/ (sb_intersects (mk_seg p01 p10) s = true /\ (side s p01 <> 0)%Z /\ (side s p10 <> 0)%Z)).
  { intros [x [y [R P]]]. assert (NL' : s_low s <> p) by congruence. assert (NH' : s_high s <> p) by congruence.
    destruct (Z_lt_le_dec (side s p * side s p11) 0) as [M|M].
    { left. split; [|lia]. apply (diagonal_hit s p p p11 x y); try assumption. intros t T. right. unfold at_x, at_y. cbn [s_low s_high]. unfold p11. cbn [px py]. rewrite PX, PY. lra. }
    destruct (Z_lt_le_dec (side s p01 * side s p10) 0) as [M'|M'].
    { right. split; [|lia]. apply (diagonal_hit s p p01 p10 x y); try assumption. intros t T. right. unfold at_x, at_y. cbn [s_low s_high]. unfold p01, p10. cbn [px py]. rewrite PX, PY. lra. }
    exfalso.
    assert (SUM : (side s p + side s p11 = side s p01 + side s p10)%Z) by (unfold side, cross, p01, p10, p11; cbn [s_low s_high px py]; ring).
    destruct P as [[X1 X2] [Y1 Y2]].
    set (al := x - IZR (px p)). set (be := y - IZR (py p)).
    assert (FQ : (1 - al) * (1 - be) * IZR (side s p) + al * (1 - be) * IZR (side s p10) + (1 - al) * be * IZR (side s p01) + al * be * IZR (side s p11) = 0).
    { rewrite <- (on_orient _ _ _ _ _ _ R). rewrite <- (seg_eta s), <- !rorient_side. rewrite seg_eta. unfold rorient, orient, al, be, p01, p10, p11. cbn [px py]. rewrite PX, PY. ring. }
    assert (A0 : 0 <= al) by (unfold al; lra). assert (A1 : al < 1) by (unfold al; lra). assert (B0 : 0 <= be) by (unfold be; lra). assert (B1 : be < 1) by (unfold be; lra).
    clearbody al be.
    assert (W0 : 0 < (1 - al) * (1 - be)) by (apply Rmult_lt_0_compat; lra). assert (W1 : 0 <= al * (1 - be)) by (apply Rmult_le_pos; lra).
    assert (W2 : 0 <= (1 - al) * be) by (apply Rmult_le_pos; lra). assert (W3 : 0 <= al * be) by (apply Rmult_le_pos; lra).
    destruct (Z_lt_le_dec 0 (side s p)) as [PS|PS].
    - assert (0 <= side s p11)%Z as F11 by nia. assert (0 <= side s p01 /\ 0 <= side s p10)%Z as [F01 F10] by nia.
      apply IZR_lt in PS. apply IZR_le in F11, F01, F10. assert (0 < (1 - al) * (1 - be) * IZR (side s p)) by (apply Rmult_lt_0_compat; lra).
      assert (0 <= al * (1 - be) * IZR (side s p10)) by (apply Rmult_le_pos; lra). assert (0 <= (1 - al) * be * IZR (side s p01)) by (apply Rmult_le_pos; lra).
      assert (0 <= al * be * IZR (side s p11)) by (apply Rmult_le_pos; lra). lra.
    - assert (PS' : (side s p < 0)%Z) by lia. assert (side s p11 <= 0)%Z as F11 by nia. assert (side s p01 <= 0 /\ side s p10 <= 0)%Z as [F01 F10] by nia.
      apply IZR_lt in PS'. apply IZR_le in F11, F01, F10. assert (0 < (1 - al) * (1 - be) * - IZR (side s p)) by (apply Rmult_lt_0_compat; lra).
      assert (0 <= al * (1 - be) * - IZR (side s p10)) by (apply Rmult_le_pos; lra). assert (0 <= (1 - al) * be * - IZR (side s p01)) by (apply Rmult_le_pos; lra).
      assert (0 <= al * be * - IZR (side s p11)) by (apply Rmult_le_pos; lra). lra. }
  destruct (sb_intersects (mk_seg p p11) s && negb (Z.sgn (up_side s p11) =? 0)%Z) eqn:D1.
  { exists true. split; [reflexivity|]. split; [intros _|reflexivity]. apply andb_true_iff in D1 as [D1 D1']. apply SD; [exact D1|apply ZB; exact D1']. }
  eexists. split; [reflexivity|]. rewrite !andb_true_iff, !ZB. split.
  - intros [[H1 H2] H3]. exact (SA H1 H2 H3).
  - intros H. destruct (CO H) as [[K1 K2]|[K1 [K2 K3]]]; [|tauto]. exfalso. apply ZB in K2. rewrite K1, K2 in D1. discriminate.
Qed.
