(* compute_intersection yields the lower left corner of the unit square of the
   intersection, or, for a vertical segment, possibly of the square above it. *)
From Verif Require Import Base Units Outcome Scan90Spec Poly90Spec Poly90Model Poly90Proofs.
From Verif Require Import Set90Spec Set90Model GeoSpec IvlModel IvlProofs RectModel RectProofs SegModel SegProofs PolySpec PolyModel PolyEdge ScanBaseModel ScanBaseOab.
From Verif Require Import SnapMove SnapNode SnapModel SnapChain ScanBaseProofs ScanBaseGrid.
From Coq Require Import Reals Lra Psatz.
Local Open Scope R_scope.

Definition small_pt (p : point) : Prop := (INT_MIN <= px p < INT_MAX /\ INT_MIN <= py p < INT_MAX)%Z.
(* the coordinates are less than INT_MAX, and the extents fit in an int *)
Definition seg_small (s : seg) : Prop :=
  small_pt (s_low s) /\ small_pt (s_high s) /\ (Z.abs (px (s_high s) - px (s_low s)) <= INT_MAX)%Z /\ (Z.abs (py (s_high s) - py (s_low s)) <= INT_MAX)%Z.
Lemma small_int p : small_pt p -> pt_int p.
Proof. unfold small_pt, pt_int, is_int. lia. Qed.
Lemma seg_small_int s : seg_small s -> seg_int s.
Proof. intros [A [B _]]. split; apply small_int; assumption. Qed.
Lemma small_box s p : seg_small s -> inbox s p -> small_pt p.
Proof. unfold seg_small, inbox, small_pt. lia. Qed.
Lemma chk_in z : is_int z -> chk z = Ok z.
Proof. unfold is_int. intros [A B]. unfold chk. rewrite (proj2 (Z.leb_le _ _) A), (proj2 (Z.leb_le _ _) B). reflexivity. Qed.

Lemma quot_div n d : (d <> 0)%Z -> (Z.quot n d = n / d \/ Z.quot n d = n / d + 1)%Z.
Proof.
  intros D. pose proof (Z.quot_rem' n d) as Q. pose proof (Z.div_mod n d D) as E.
  pose proof (Z.rem_bound_abs n d D) as RB.
  assert (M : (0 <= n mod d < d \/ d < n mod d <= 0)%Z) by (destruct (Z_lt_le_dec 0 d); [left; apply Z.mod_pos_bound; assumption|right; apply Z.mod_neg_bound; lia]).
  set (q := Z.quot n d) in *. set (r := Z.rem n d) in *. set (f := (n / d)%Z) in *. set (m := (n mod d)%Z) in *. clearbody q r f m.
  assert (K : (d * (q - f) = m - r)%Z) by lia. destruct M as [M|M]; nia.
Qed.
Lemma floor_real n d y : (d <> 0)%Z -> IZR n = y * IZR d -> IZR (n / d) <= y < IZR (n / d) + 1.
Proof.
  intros D E. pose proof (Z.div_mod n d D) as Q. apply (f_equal IZR) in Q. rewrite plus_IZR, mult_IZR, E in Q.
  assert (Q' : IZR d * (y - IZR (n / d)) = IZR (n mod d)) by lra.
  destruct (Z_lt_le_dec 0 d) as [P|P].
  - pose proof (Z.mod_pos_bound n d P) as [M1 M2]. apply IZR_le in M1. apply IZR_lt in M2. apply IZR_lt in P.
    split; [apply Rnot_lt_le; intros K; nra|]. apply Rnot_le_lt. intros K. nra.
  - assert (P' : (d < 0)%Z) by lia. pose proof (Z.mod_neg_bound n d P') as [M1 M2]. apply IZR_lt in M1. apply IZR_le in M2. apply IZR_lt in P'.
    split; [apply Rnot_lt_le; intros K; nra|]. apply Rnot_le_lt. intros K. nra.
Qed.
(* an integer in the unit interval below a number of an integer range *)
Lemma floor_range a b z y : IZR a <= y <= IZR b -> IZR z <= y < IZR z + 1 -> (a <= z <= b)%Z.
Proof.
  intros [A B] [C D]. split; [|apply le_IZR; lra]. assert (IZR a < IZR (z + 1)) as H by (rewrite plus_IZR; lra). apply lt_IZR in H. lia.
Qed.
Lemma sb_floor_eq n d y a b : (d <> 0)%Z -> IZR n = y * IZR d -> IZR a <= y <= IZR b -> is_int a -> is_int b -> sb_floor n d = Ok (n / d)%Z.
Proof.
  intros D E R IA IB. pose proof (floor_real n d y D E) as F. pose proof (floor_range _ _ _ _ R F) as G.
  assert (Q : (Z.quot n d = n / d \/ Z.quot n d = n / d + 1 /\ n / d < b)%Z).
  { destruct (quot_div n d D) as [Q|Q]; [left; exact Q|]. destruct (Z_lt_le_dec (n / d) b) as [L|L]; [right; lia|]. left.
    (* y is the integer b *)
    assert (n / d = b)%Z by lia. assert (y = IZR (n / d)) as Y by (rewrite H in *; lra). rewrite Y, <- mult_IZR in E. apply eq_IZR in E. rewrite E at 1. apply Z.quot_mul. exact D. }
  unfold sb_floor, sb_trunc, is_int in *. destruct Q as [Q|[Q L]]; rewrite Q.
  - rewrite chk_in by (unfold is_int; lia). cbn [obind]. rewrite Z.ltb_irrefl. reflexivity.
  - rewrite chk_in by (unfold is_int; lia). cbn [obind]. rewrite (proj2 (Z.ltb_lt _ _)) by lia. rewrite chk_in by (unfold is_int; lia). f_equal. lia.
Qed.
Lemma sb_trunc_eq n d y a b : (d <> 0)%Z -> IZR n = y * IZR d -> IZR a <= y <= IZR b -> is_int a -> is_int b ->
  exists z, sb_trunc n d = Ok z /\ (a <= z <= b)%Z /\ (IZR z <= y < IZR z + 1 \/ IZR (z - 1) <= y < IZR (z - 1) + 1).
Proof.
  intros D E R IA IB. pose proof (floor_real n d y D E) as F. pose proof (floor_range _ _ _ _ R F) as G.
  assert (Q : (Z.quot n d = n / d \/ Z.quot n d = n / d + 1 /\ n / d < b)%Z).
  { destruct (quot_div n d D) as [Q|Q]; [left; exact Q|]. destruct (Z_lt_le_dec (n / d) b) as [L|L]; [right; lia|]. left.
    assert (n / d = b)%Z by lia. assert (y = IZR (n / d)) as Y by (rewrite H in *; lra). rewrite Y, <- mult_IZR in E. apply eq_IZR in E. rewrite E at 1. apply Z.quot_mul. exact D. }
  unfold is_int in *. exists (Z.quot n d). unfold sb_trunc. destruct Q as [Q|[Q L]]; rewrite Q; (rewrite chk_in by (unfold is_int; lia)); (split; [reflexivity|]); (split; [lia|]); [left; exact F|right].
  replace (n / d + 1 - 1)%Z with (n / d)%Z by lia. exact F.
Qed.
(* the height of an edge over x *)
Section height.
  Variables (o : seg) (x : Z) (y : R).
  Hypothesis SO : seg_small o.
  Hypothesis NV : px (s_low o) <> px (s_high o).
  Hypothesis ON : ron (s_low o) (s_high o) (IZR x) y.
  Let n := ((x - px (s_low o)) * (py (s_high o) - py (s_low o)) + py (s_low o) * (px (s_high o) - px (s_low o)))%Z.
  Let d := (px (s_high o) - px (s_low o))%Z.
  Lemma height_eq : IZR n = y * IZR d.
  Proof.
    apply on_orient in ON. unfold orient in ON. unfold n, d. rewrite plus_IZR, !mult_IZR, !minus_IZR. lra.
  Qed.
  Lemma height_d : d <> 0%Z.
  Proof. unfold d. lia. Qed.
  Lemma height_range : IZR (Z.min (py (s_low o)) (py (s_high o))) <= y <= IZR (Z.max (py (s_low o)) (py (s_high o))).
  Proof. apply ron_box in ON. rewrite <- Rmin_IZR, <- Rmax_IZR. apply ON. Qed.
  Lemma height_ints : is_int (Z.min (py (s_low o)) (py (s_high o))) /\ is_int (Z.max (py (s_low o)) (py (s_high o))).
  Proof. destruct SO as [[A1 A2] [[B1 B2] _]]. unfold is_int. lia. Qed.
  Lemma height_flat : py (s_low o) = py (s_high o) -> y = IZR (py (s_low o)).
  Proof. intros E. pose proof height_range as H. rewrite <- E, Z.min_id, Z.max_id in H. lra. Qed.
  Lemma height_first : x = px (s_low o) -> y = IZR (py (s_low o)).
  Proof.
    intros E. pose proof height_eq as H. unfold n, d in H. rewrite E in H. rewrite Z.sub_diag, Z.mul_0_l, Z.add_0_l, mult_IZR in H.
    symmetry. apply (Rmult_eq_reg_r (IZR (px (s_high o) - px (s_low o)))); [exact H|]. intros K. apply eq_IZR in K. lia.
  Qed.
  Lemma eval_lazy_spec : exists z, sb_eval_lazy x (s_low o) (s_high o) = Ok z /\
    (Z.min (py (s_low o)) (py (s_high o)) <= z <= Z.max (py (s_low o)) (py (s_high o)))%Z /\ (IZR z <= y < IZR z + 1 \/ IZR (z - 1) <= y < IZR (z - 1) + 1).
  Proof.
    unfold sb_eval_lazy. destruct (Z.eqb_spec (py (s_low o)) (py (s_high o))) as [E|E].
    { exists (py (s_low o)). split; [reflexivity|]. split; [lia|]. left. rewrite (height_flat E). lra. }
    destruct (Z.eqb_spec (x - px (s_low o)) 0) as [E2|E2].
    { exists (py (s_low o)). split; [reflexivity|]. split; [lia|]. left. rewrite height_first by lia. lra. }
    destruct height_ints as [I1 I2]. exact (sb_trunc_eq n d y _ _ height_d height_eq height_range I1 I2).
  Qed.
  Lemma eval_spec : exists z, sb_eval x (s_low o) (s_high o) = Ok z /\ IZR z <= y < IZR z + 1.
  Proof.
    unfold sb_eval. destruct (Z.eqb_spec (py (s_low o)) (py (s_high o))) as [E|E].
    { exists (py (s_low o)). split; [reflexivity|]. rewrite (height_flat E). lra. }
    destruct (Z.eqb_spec (x - px (s_low o)) 0) as [E2|E2].
    { exists (py (s_low o)). split; [reflexivity|]. rewrite height_first by lia. lra. }
    destruct height_ints as [I1 I2]. exists (n / d)%Z. split; [exact (sb_floor_eq n d y _ _ height_d height_eq height_range I1 I2)|]. exact (floor_real n d y height_d height_eq).
  Qed.
End height.
Lemma sb_vertical_iff s : sb_vertical s = true <-> px (s_low s) = px (s_high s).
Proof. unfold sb_vertical. apply Z.eqb_eq. Qed.
Lemma vertical_x v x y : sb_vertical v = true -> ron (s_low v) (s_high v) x y -> x = IZR (px (s_low v)).
Proof. intros V [t [_ [<- _]]]. apply sb_vertical_iff in V. rewrite V. ring. Qed.
Lemma contains_y v z : contains_v (vertical (seg_box v)) z true = true <-> (Z.min (py (s_low v)) (py (s_high v)) <= z <= Z.max (py (s_low v)) (py (s_high v)))%Z.
Proof. rewrite box_y. unfold sy, contains_v. cbn [lo hi]. rewrite andb_true_iff, Z.leb_le, Z.geb_le. lia. Qed.

Lemma vert_lazy v o x y : seg_small v -> seg_small o -> sb_vertical v = true -> sb_vertical o = false -> common v o x y ->
  exists r, sb_at_vertical sb_eval_lazy v o = Ok r /\
    forall p, r = Some p -> small_pt p /\ px p = px (s_low v) /\ (pixel p x y \/ pixel (mk_pt (px p) (py p - 1)) x y).
Proof.
  intros SV SO V NV [CV CO]. pose proof (vertical_x v x y V CV) as X. subst x.
  assert (NV' : px (s_low o) <> px (s_high o)) by (intros E; apply sb_vertical_iff in E; congruence).
  destruct (eval_lazy_spec o (px (s_low v)) y SO NV' CO) as [z [E [B R]]].
  unfold sb_at_vertical. rewrite E. cbn [obind]. eexists. split; [reflexivity|]. intros p P.
  destruct (contains_v (vertical (seg_box v)) z true) eqn:C; [|discriminate]. assert (p = mk_pt (px (s_low v)) z) by congruence. subst p. cbn [px py].
  split; [|split; [reflexivity|]].
  - apply contains_y in C. destruct SV as [A1 [A2 _]]. unfold small_pt in *. cbn [px py]. lia.
  - unfold pixel. cbn [px py]. destruct R as [R|R]; [left|right]; split; lra.
Qed.
Lemma vert_exact v o x y : seg_small v -> seg_small o -> sb_vertical v = true -> sb_vertical o = false -> common v o x y ->
  exists p, sb_at_vertical sb_eval v o = Ok (Some p) /\ pixel p x y.
Proof.
  intros SV SO V NV [CV CO]. pose proof (vertical_x v x y V CV) as X. subst x.
  assert (NV' : px (s_low o) <> px (s_high o)) by (intros E; apply sb_vertical_iff in E; congruence).
  destruct (eval_spec o (px (s_low v)) y SO NV' CO) as [z [E R]].
  unfold sb_at_vertical. rewrite E. cbn [obind].
  assert (C : contains_v (vertical (seg_box v)) z true = true).
  { apply contains_y. apply ron_box in CV. destruct CV as [_ CV]. rewrite Rmin_IZR, Rmax_IZR in CV. exact (floor_range _ _ _ _ CV R). }
  rewrite C. eexists. split; [reflexivity|]. unfold pixel. cbn [px py]. split; lra.
Qed.
(* two edges that are not vertical *)
Lemma common_floor_box s p x y : ron (s_low s) (s_high s) x y -> pixel p x y -> inbox s p.
Proof. intros R P. apply passes_box. exists x, y. auto. Qed.
Lemma crossing_spec df s1 s2 x y : (forall z, is_int z -> df z = Ok z) -> seg_small s1 -> seg_small s2 -> sb_vertical s1 = false -> sb_vertical s2 = false -> common s1 s2 x y ->
  exists r, sb_crossing df s1 s2 = Ok r /\ (cross s1 s2 = 0%Z -> r = None) /\ (cross s1 s2 <> 0%Z -> exists p, r = Some p /\ pixel p x y).
Proof.
  intros DF S1 S2 V1 V2 [C1 C2]. pose proof S1 as [SL1 [SH1 [DX1 DY1]]]. pose proof S2 as [SL2 [SH2 [DX2 DY2]]].
  assert (AI : forall z, (Z.abs z <= INT_MAX)%Z -> is_int z) by (unfold is_int, INT_MIN, INT_MAX; lia). apply AI in DX1, DY1, DX2, DY2.
  unfold sb_crossing. rewrite !DF by assumption. cbn [obind].
  set (dx1 := (px (s_high s1) - px (s_low s1))%Z). set (dy1 := (py (s_high s1) - py (s_low s1))%Z).
  set (dx2 := (px (s_high s2) - px (s_low s2))%Z). set (dy2 := (py (s_high s2) - py (s_low s2))%Z).
  assert (CR : (cross s1 s2 = dx1 * dy2 - dy1 * dx2)%Z) by reflexivity.
  destruct (Z.eqb_spec (dx1 * dy2) (dx2 * dy1)) as [E|E].
  { exists None. split; [reflexivity|]. split; [reflexivity|]. lia. }
  assert (NC : cross s1 s2 <> 0%Z) by lia.
  set (xn := (px (s_low s1) * dy1 * dx2 - px (s_low s2) * dy2 * dx1 + py (s_low s2) * dx1 * dx2 - py (s_low s1) * dx1 * dx2)%Z).
  set (yn := (py (s_low s1) * dx1 * dy2 - py (s_low s2) * dx2 * dy1 + px (s_low s2) * dy1 * dy2 - px (s_low s1) * dy1 * dy2)%Z).
  pose proof (on_orient _ _ _ _ _ _ C1) as O1. pose proof (on_orient _ _ _ _ _ _ C2) as O2. unfold orient in O1, O2.
  assert (D1 : IZR dx1 = IZR (px (s_high s1)) - IZR (px (s_low s1))) by apply minus_IZR. assert (D2 : IZR dy1 = IZR (py (s_high s1)) - IZR (py (s_low s1))) by apply minus_IZR.
  assert (D3 : IZR dx2 = IZR (px (s_high s2)) - IZR (px (s_low s2))) by apply minus_IZR. assert (D4 : IZR dy2 = IZR (py (s_high s2)) - IZR (py (s_low s2))) by apply minus_IZR.
  rewrite <- D1, <- D2 in O1. rewrite <- D3, <- D4 in O2.
  assert (XE : IZR xn = x * IZR (dy1 * dx2 - dy2 * dx1)).
  { unfold xn. repeat rewrite ?plus_IZR, ?minus_IZR, ?mult_IZR.
    assert (H1 : IZR dx2 * (IZR dx1 * (y - IZR (py (s_low s1))) - IZR dy1 * (x - IZR (px (s_low s1)))) = 0) by (rewrite O1; ring).
    assert (H2 : IZR dx1 * (IZR dx2 * (y - IZR (py (s_low s2))) - IZR dy2 * (x - IZR (px (s_low s2)))) = 0) by (rewrite O2; ring). lra. }
  assert (YE : IZR yn = y * IZR (dx1 * dy2 - dx2 * dy1)).
  { unfold yn. repeat rewrite ?plus_IZR, ?minus_IZR, ?mult_IZR.
    assert (H1 : IZR dy2 * (IZR dx1 * (y - IZR (py (s_low s1))) - IZR dy1 * (x - IZR (px (s_low s1)))) = 0) by (rewrite O1; ring).
    assert (H2 : IZR dy1 * (IZR dx2 * (y - IZR (py (s_low s2))) - IZR dy2 * (x - IZR (px (s_low s2)))) = 0) by (rewrite O2; ring). lra. }
  clearbody xn yn.
  pose proof (ron_box _ _ _ _ C1) as [BX BY]. rewrite Rmin_IZR, Rmax_IZR in BX, BY.
  assert (NX : (dy1 * dx2 - dy2 * dx1 <> 0)%Z) by lia. assert (NY : (dx1 * dy2 - dx2 * dy1 <> 0)%Z) by lia.
  assert (FX := floor_real _ _ x NX XE). assert (FY := floor_real _ _ y NY YE).
  rewrite (sb_floor_eq _ _ x _ _ NX XE BX) by (unfold small_pt, is_int in *; lia). cbn [obind].
  rewrite (sb_floor_eq _ _ y _ _ NY YE BY) by (unfold small_pt, is_int in *; lia). cbn [obind].
  set (fx := (xn / (dy1 * dx2 - dy2 * dx1))%Z) in *. set (fy := (yn / (dx1 * dy2 - dx2 * dy1))%Z) in *. clearbody fx fy.
  assert (HY : forall s, sb_horizontal s = true -> ron (s_low s) (s_high s) x y -> py (s_low s) = fy).
  { intros s H R. apply Z.eqb_eq in H. apply ron_box in R. destruct R as [_ R]. rewrite Rmin_IZR, Rmax_IZR in R. pose proof (floor_range _ _ _ _ R FY). lia. }
  assert (EY : (if sb_horizontal s2 then py (s_low s2) else if sb_horizontal s1 then py (s_low s1) else fy) = fy).
  { destruct (sb_horizontal s2) eqn:H2; [apply HY; assumption|]. destruct (sb_horizontal s1) eqn:H1; [apply HY; assumption|reflexivity]. }
  rewrite EY. assert (PP : pixel (mk_pt fx fy) x y) by (unfold pixel; cbn [px py]; lra).
  assert (B1 : r_contains_pt (seg_box s1) (mk_pt fx fy) true = true) by (apply contains_box; apply (common_floor_box _ _ x y); assumption).
  assert (B2 : r_contains_pt (seg_box s2) (mk_pt fx fy) true = true) by (apply contains_box; apply (common_floor_box _ _ x y); assumption).
  rewrite B1, B2. cbn [negb]. eexists. split; [reflexivity|]. split; [intros K; contradiction|]. intros _. eexists. split; [reflexivity|exact PP].
Qed.
Lemma closed_boxes s1 s2 x y : common s1 s2 x y -> r_intersects (seg_box s1) (seg_box s2) true = true.
Proof.
  intros [C1 C2]. apply ron_box in C1, C2. rewrite !Rmin_IZR, !Rmax_IZR in *. unfold r_intersects. rewrite !box_x, !box_y. unfold sx, sy, intersects_i. cbn [lo hi].
  rewrite !andb_true_iff, !Z.leb_le, !Z.geb_le. repeat split; apply le_IZR; lra.
Qed.
Lemma common_sym s1 s2 x y : common s1 s2 x y -> common s2 s1 x y.
Proof. unfold common. tauto. Qed.
Lemma cross_zero_v s1 s2 : sb_vertical s1 = true -> sb_vertical s2 = true -> cross s1 s2 = 0%Z.
Proof. rewrite !sb_vertical_iff. intros A B. unfold cross. rewrite A, B. ring. Qed.

(* what compute_intersection may yield *)
Definition near (s1 s2 : seg) (p : point) (x y : R) : Prop :=
  pixel p x y \/ ((sb_vertical s1 = true /\ px p = px (s_low s1) \/ sb_vertical s2 = true /\ px p = px (s_low s2)) /\ pixel (mk_pt (px p) (py p - 1)) x y).
Theorem compute_intersection_spec s1 s2 : seg_small s1 -> seg_small s2 ->
  exists r, sb_compute_intersection s1 s2 = Ok r /\
    (forall p, r = Some p -> small_pt p /\ passes s1 p /\ passes s2 p /\ exists x y, common s1 s2 x y /\ near s1 s2 p x y) /\
    (forall x y, cross s1 s2 <> 0%Z -> common s1 s2 x y -> sb_intersects s1 s2 = true -> exists p, r = Some p /\ near s1 s2 p x y).
Proof.
  intros S1 S2. pose proof (seg_small_int _ S1) as I1. pose proof (seg_small_int _ S2) as I2. unfold sb_compute_intersection.
  destruct (sb_intersects s1 s2) eqn:SI; cbn [negb].
  2:{ exists None. split; [reflexivity|]. split; [discriminate|]. discriminate. }
  destruct (intersects_sound s1 s2 I1 I2 SI) as [x [y C]].
  assert (UQ : forall x' y', cross s1 s2 <> 0%Z -> common s1 s2 x' y' -> x' = x /\ y' = y).
  { intros x' y' N C'. apply (common_unique s1 s2); try assumption. rewrite rcross_cross. intros K. apply N. apply eq_IZR. exact K. }
  (* a point found *)
  assert (FIN : forall p, small_pt p -> pixel p x y -> small_pt p /\ passes s1 p /\ passes s2 p).
  { intros p SP P. destruct C as [C1 C2]. split; [exact SP|]. split; exists x, y; auto. }
  assert (FIN' : forall p, pixel p x y -> small_pt p /\ passes s1 p /\ passes s2 p).
  { intros p P. apply FIN; [|exact P]. destruct C as [C1 C2]. apply (small_box s1); [exact S1|]. apply (common_floor_box s1 p x y); assumption. }
  (* the exact computation *)
  assert (EX : exists r, sb_exact s1 s2 = Ok r /\ (forall p, r = Some p -> pixel p x y) /\ (cross s1 s2 <> 0%Z -> exists p, r = Some p)).
  { unfold sb_exact. rewrite SI. cbn [negb]. unfold sb_crossing_of. rewrite (closed_boxes _ _ _ _ C). cbn [negb].
    destruct (sb_vertical s1) eqn:V1.
    - destruct (sb_vertical s2) eqn:V2.
      + exists None. split; [reflexivity|]. split; [discriminate|]. intros N. contradiction N. apply cross_zero_v; assumption.
      + destruct (vert_exact s1 s2 x y S1 S2 V1 V2 C) as [p [E P]]. exists (Some p). split; [exact E|]. split; [intros q Q; congruence|]. intros _. exists p. reflexivity.
    - destruct (sb_vertical s2) eqn:V2.
      + destruct (vert_exact s2 s1 x y S2 S1 V2 V1 (common_sym _ _ _ _ C)) as [p [E P]]. exists (Some p). split; [exact E|]. split; [intros q Q; congruence|]. intros _. exists p. reflexivity.
      + destruct (crossing_spec (fun d => Ok d) s1 s2 x y (fun z _ => eq_refl) S1 S2 V1 V2 C) as [r [E [R1 R2]]]. exists r. split; [exact E|]. split.
        * intros p P. destruct (Z.eq_dec (cross s1 s2) 0) as [Z0|Z0]; [rewrite (R1 Z0) in P; discriminate|]. destruct (R2 Z0) as [q [Q Q']]. congruence.
        * intros N. destruct (R2 N) as [q [Q _]]. exists q. exact Q. }
  destruct EX as [re [EE [EP EN]]].
  assert (DONE : exists r, sb_exact s1 s2 = Ok r /\ (forall p, r = Some p -> small_pt p /\ passes s1 p /\ passes s2 p /\ exists x y, common s1 s2 x y /\ near s1 s2 p x y) /\
    (forall x y, cross s1 s2 <> 0%Z -> common s1 s2 x y -> true = true -> exists p, r = Some p /\ near s1 s2 p x y)).
  { exists re. split; [exact EE|]. split; [intros p P; apply EP in P; destruct (FIN' p P) as [A [B D]]; repeat (split; [assumption|]); exists x, y; split; [exact C|left; exact P]|]. intros x' y' N C' _. destruct (UQ x' y' N C') as [-> ->].
    destruct (EN N) as [p P]. exists p. split; [exact P|]. left. apply EP. exact P. }
  (* the lazy computation *)
  assert (LZ : exists r, sb_lazy s1 s2 = Ok r /\ forall p, r = Some p -> small_pt p /\ near s1 s2 p x y).
  { unfold sb_lazy, sb_crossing_of, near. rewrite (closed_boxes _ _ _ _ C). cbn [negb].
    destruct (sb_vertical s1) eqn:V1.
    - destruct (sb_vertical s2) eqn:V2.
      + exists None. split; [reflexivity|discriminate].
      + destruct (vert_lazy s1 s2 x y S1 S2 V1 V2 C) as [r [E P]]. exists r. split; [exact E|]. intros p Q. destruct (P p Q) as [A [B [D|D]]]; split; auto.
    - destruct (sb_vertical s2) eqn:V2.
      + destruct (vert_lazy s2 s1 x y S2 S1 V2 V1 (common_sym _ _ _ _ C)) as [r [E P]]. exists r. split; [exact E|]. intros p Q. destruct (P p Q) as [A [B [D|D]]]; split; auto.
      + destruct (crossing_spec chk s1 s2 x y chk_in S1 S2 V1 V2 C) as [r [E [R1 R2]]]. exists r. split; [exact E|]. intros p P.
        destruct (Z.eq_dec (cross s1 s2) 0) as [Z0|Z0]; [rewrite (R1 Z0) in P; discriminate|]. destruct (R2 Z0) as [q [Q Q']]. assert (q = p) by congruence. subst q.
        split; [apply FIN'; exact Q'|left; exact Q']. }
  destruct LZ as [rl [EL LP]]. rewrite EL. cbn [obind]. destruct rl as [p|]; [|exact DONE].
  destruct (LP p eq_refl) as [SP NP]. assert (PB : (px p < INT_MAX /\ py p < INT_MAX)%Z) by (unfold small_pt in SP; lia).
  destruct (grid_exact p s1 (small_int _ SP) I1 (proj1 PB) (proj2 PB)) as [g1 [G1 H1]]. destruct (grid_exact p s2 (small_int _ SP) I2 (proj1 PB) (proj2 PB)) as [g2 [G2 H2]].
  rewrite G1. cbn [obind]. destruct g1; cbn [obind]; [|exact DONE]. rewrite G2. cbn [obind]. destruct g2; [|exact DONE].
  exists (Some p). split; [reflexivity|]. split.
  - intros q Q. assert (q = p) by congruence. subst q. split; [exact SP|]. split; [apply H1; reflexivity|]. split; [apply H2; reflexivity|]. exists x, y. split; [exact C|exact NP].
  - intros x' y' N C' _. destruct (UQ x' y' N C') as [-> ->]. exists p. split; [reflexivity|exact NP].
Qed.
