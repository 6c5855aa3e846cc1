(* Area, winding, is_45, perimeter and extents of polygons. *)
From Verif Require Import Base Units Outcome Scan90Spec Poly90Spec Poly90Model Poly90Proofs PolyCycle Poly90Vertices.
From Verif Require Import Set90Spec Set90Model GeoSpec IvlModel IvlProofs RectModel RectProofs SegModel PolySpec PolyModel.

Lemma chkf_inv w z v : chkf w z = Ok v -> v = z.
Proof. unfold chkf. destruct (_ && _); congruence. Qed.
Lemma chkf_ok w z : - 2 ^ w <= z <= 2 ^ w -> chkf w z = Ok z.
Proof. intros H. unfold chkf. destruct ((_ && _)%bool) eqn:E; [reflexivity|lia]. Qed.
Lemma chkf_def w z : chkf w z <> Undefined.
Proof. unfold chkf. destruct (_ && _); discriminate. Qed.

Lemma area_edge_d_eq w yb a b s v : area_edge_d w yb a b s = Ok v -> v = s + trap yb (a, b).
Proof.
  unfold area_edge_d, trap. cbn [fst snd].
  destruct (chkf w _) as [p| |] eqn:E1; cbn [obind]; try discriminate. intros E2.
  apply chkf_inv in E1, E2. subst. ring.
Qed.
Lemma area_loop_d_eq w yb l : forall p s v q, area_loop_d w yb p s l = Ok (v, q) ->
  q = last l p /\ v = s + zsum (trap yb) (pedges (p :: l)).
Proof.
  induction l as [|b l IH]; intros p s v q E.
  - cbn [area_loop_d] in E. injection E as <- <-. split; [reflexivity|]. unfold zsum. cbn [pedges fold_right]. lia.
  - change (pedges (p :: b :: l)) with ((p, b) :: pedges (b :: l)).
    cbn [area_loop_d] in E. rewrite zsum_cons.
    assert (L : last (b :: l) p = last l b).
    { destruct l as [|c l]; [reflexivity|]. exact (last_dflt l c p b). }
    rewrite L. destruct (Z.eqb_spec (px p) (px b)) as [X|X].
    + cbn [obind] in E. destruct (IH _ _ _ _ E) as [H1 H2]. split; [exact H1|]. rewrite H2.
      unfold trap at 2. cbn [fst snd]. rewrite X. lia.
    + destruct (area_edge_d w yb p b s) as [s'| |] eqn:E1; cbn [obind] in E; try discriminate.
      destruct (IH _ _ _ _ E) as [H1 H2]. split; [exact H1|]. rewrite H2.
      pose proof (area_edge_d_eq _ _ _ _ _ _ E1). lia.
Qed.
Lemma points_area_d_eq w l v : points_area_d w l = Ok v -> v = - shoelace2 l.
Proof.
  destruct l as [|p l]; intros E.
  - cbn [points_area_d] in E. injection E as <-. reflexivity.
  - rewrite <- (shoelace_trap (py p)). rewrite cyc_pedges, pedges_app.
    rewrite zsum_app, zsum_cons. cbn [points_area_d] in E.
    destruct (area_loop_d w (py p) p 0 l) as [[s q]| |] eqn:E1; cbn [obind] in E; try discriminate.
    destruct (area_loop_d_eq _ _ _ _ _ _ _ E1) as [H1 H2]. rewrite <- H1. unfold zsum at 2. cbn [fold_right].
    destruct (pt_eqb p q) eqn:Eq.
    + apply pt_eqb_iff in Eq. injection E as <-. rewrite H2. unfold trap at 3. cbn [fst snd]. rewrite Eq. lia.
    + pose proof (area_edge_d_eq _ _ _ _ _ _ E). lia.
Qed.
Lemma points_area_d_defined w l : points_area_d w l <> Undefined.
Proof.
  assert (A : forall yb a b s, area_edge_d w yb a b s <> Undefined).
  { intros. unfold area_edge_d. destruct (chkf w _) eqn:E; cbn [obind]; [apply chkf_def|discriminate|exact (fun _ => chkf_def _ _ E)]. }
  destruct l as [|p l]; [discriminate|]. cbn [points_area_d].
  assert (L : forall yb k q s, area_loop_d w yb q s k <> Undefined).
  { intros yb k. induction k as [|b k IH]; intros q s; cbn [area_loop_d]; [discriminate|].
    destruct (px q =? px b); cbn [obind]; [apply IH|].
    specialize (A yb q b s). destruct (area_edge_d w yb q b s); cbn [obind]; [apply IH|discriminate|contradiction]. }
  specialize (L (py p) l p 0). destruct (area_loop_d w (py p) p 0 l) as [[s q]| |]; cbn [obind]; [|discriminate|contradiction].
  destruct (pt_eqb p q); [discriminate|apply A].
Qed.
Lemma area_edge_d_fits w B y a b s k :
  0 <= B -> pt_fits B a -> pt_fits B b -> - B <= y <= B ->
  0 <= k -> - (k * (8 * (B * B))) <= s <= k * (8 * (B * B)) -> (k + 1) * (8 * (B * B)) <= 2 ^ w ->
  exists v, area_edge_d w y a b s = Ok v /\ - ((k + 1) * (8 * (B * B))) <= v <= (k + 1) * (8 * (B * B)).
Proof.
  intros HB [Ha1 Ha2] [Hb1 Hb2] Hy Hk Hs HK. unfold area_edge_d.
  set (P := (px b - px a) * (py b - y + (py a - y))).
  assert (HPb : - (8 * (B * B)) <= P <= 8 * (B * B)).
  { assert (U : - (2 * B) <= px b - px a <= 2 * B) by lia.
    assert (V : - (4 * B) <= py b - y + (py a - y) <= 4 * B) by lia.
    unfold P. set (u := px b - px a) in *. set (v := py b - y + (py a - y)) in *. clearbody u v. nia. }
  clearbody P. set (C := 8 * (B * B)) in *. assert (0 <= C) by (unfold C; nia). clearbody C.
  rewrite (chkf_ok w P) by nia. cbn [obind].
  rewrite chkf_ok by nia. eexists; split; [reflexivity|nia].
Qed.
Lemma area_loop_d_fits w B y l : forall p s k, 0 <= B -> pt_fits B p -> - B <= y <= B -> Forall (pt_fits B) l ->
  0 <= k -> - (k * (8 * (B * B))) <= s <= k * (8 * (B * B)) -> (k + Z.of_nat (length l)) * (8 * (B * B)) <= 2 ^ w ->
  exists v q, area_loop_d w y p s l = Ok (v, q) /\ pt_fits B q /\
    - ((k + Z.of_nat (length l)) * (8 * (B * B))) <= v <= (k + Z.of_nat (length l)) * (8 * (B * B)).
Proof.
  induction l as [|q l IH]; intros p s k HB Hp Hy Hl Hk Hs HK.
  - exists s, p. split; [reflexivity|]. split; [exact Hp|]. cbn [length]. lia.
  - inversion Hl as [|? ? Hq Hl']; subst. cbn [area_loop_d]. cbn [length] in *.
    assert (HBB : 0 <= 8 * (B * B)) by nia.
    assert (E : exists v, (if px p =? px q then Ok s else area_edge_d w y p q s) = Ok v /\
      - ((k + 1) * (8 * (B * B))) <= v <= (k + 1) * (8 * (B * B))).
    { destruct (px p =? px q); [exists s; split; [reflexivity|nia]|].
      apply area_edge_d_fits; try assumption; try nia. }
    destruct E as [v [-> Hv]]. cbn [obind].
    destruct (IH q v (k + 1) HB Hq Hy Hl' ltac:(lia) Hv ltac:(nia)) as [v' [q' [E1 [E2 E3]]]].
    exists v', q'. split; [exact E1|]. split; [exact E2|]. nia.
Qed.
Lemma points_area_d_fits w B l : 0 <= B -> Forall (pt_fits B) l -> Z.of_nat (length l) * (8 * (B * B)) <= 2 ^ w ->
  exists v, points_area_d w l = Ok v.
Proof.
  intros HB Hl HK. destruct l as [|p l]; [exists 0; reflexivity|]. inversion Hl as [|? ? Hp Hl']; subst. cbn [length] in HK.
  unfold points_area_d. assert (HBB : 0 <= 8 * (B * B)) by nia.
  destruct (area_loop_d_fits w B (py p) l p 0 0 HB Hp ltac:(apply Hp) Hl' ltac:(lia) ltac:(lia) ltac:(nia)) as [v [q [-> [Hq Hv]]]].
  cbn [obind]. destruct (pt_eqb p q); [eauto|].
  destruct (area_edge_d_fits w B (py p) q p v (Z.of_nat (length l))) as [v' [E _]]; try assumption; try nia; try (apply Hp); eauto.
Qed.

(* with holes *)
Lemma minus_holes_d_eq w hs : forall a v, minus_holes_d w a hs = Ok v ->
  v = a - zsum (fun h => Z.abs (shoelace2 h)) hs.
Proof.
  induction hs as [|h hs IH]; intros a v E; cbn [minus_holes_d] in E.
  - injection E as <-. unfold zsum; cbn [fold_right]. lia.
  - destruct (points_area_d w h) as [u| |] eqn:E1; cbn [obind] in E; try discriminate.
    destruct (chkf w (a - Z.abs u)) as [a'| |] eqn:E2; cbn [obind] in E; try discriminate.
    apply chkf_inv in E2. apply points_area_d_eq in E1. rewrite (IH _ _ E), zsum_cons. subst. lia.
Qed.
Lemma poly_area_d_eq w g v : poly_area_d w g = Ok v ->
  v = Z.abs (shoelace2 (g_outer g)) - zsum (fun h => Z.abs (shoelace2 h)) (g_holes g).
Proof.
  unfold poly_area_d. destruct (points_area_d w (g_outer g)) as [u| |] eqn:E1; cbn [obind]; try discriminate.
  intros E. rewrite (minus_holes_d_eq _ _ _ _ E). apply points_area_d_eq in E1. subst. lia.
Qed.
Lemma ctp_rectilinear fx l : forall pt o, (l = [] -> True) -> Forall axis_edge (pedges (ctp_go fx pt o l)) /\
  (exists t, ctp_go fx pt o l = pt :: t) /\
  px (last (ctp_go fx pt o l) pt) = fx.
Proof.
  induction l as [|c l IH]; intros pt o _.
  - cbn [ctp_go]. destruct (Z.eqb_spec (px pt) fx) as [E|E]; cbn [negb].
    + cbn [pedges last]. split; [constructor|]. split; [eauto|exact E].
    + cbn [pedges last px]. split; [constructor; [right; reflexivity|constructor]|]. split; [eauto|reflexivity].
  - destruct (IH (pt_set pt o c) (perp o) ltac:(auto)) as [A [[t B] C]]. cbn [ctp_go]. rewrite B in *.
    change (pedges (pt :: pt_set pt o c :: t)) with ((pt, pt_set pt o c) :: pedges (pt_set pt o c :: t)).
    split; [constructor; [|exact A]|].
    + destruct o; [right|left]; reflexivity.
    + split; [eauto|]. change (last (pt :: pt_set pt o c :: t) pt) with (last (pt_set pt o c :: t) pt).
      rewrite (last_dflt t (pt_set pt o c) pt (pt_set pt o c)). exact C.
Qed.
(* the points of compact coordinates always form a rectilinear cycle *)
Lemma ctp_axis l : Forall axis_edge (cyc_edges (compact_to_points l)).
Proof.
  destruct l as [|x [|y l]]; [constructor|constructor|]. cbn [compact_to_points].
  destruct (ctp_rectilinear x l (mk_pt x y) Horizontal ltac:(auto)) as [A [[t B] C]]. rewrite B in *.
  rewrite cyc_pedges, pedges_app. apply Forall_app. split; [exact A|]. constructor; [|constructor]. left. cbn [fst snd px].
  assert (L : last (mk_pt x y :: t) (mk_pt x y) = last t (mk_pt x y)) by (destruct t; reflexivity).
  rewrite <- L. exact C.
Qed.
Lemma abs_neg v w : (if v <? 0 then chk64 (v * -1) else Ok v) = Ok w -> w = Z.abs v.
Proof. destruct (Z.ltb_spec v 0); intros E; [apply chk64_inv' in E|injection E as <-]; lia. Qed.
Lemma minus_holes_90_eq hs : forall a v, minus_holes_90 a hs = Ok v ->
  2 * v = 2 * a - zsum (fun h => Z.abs (shoelace2 (compact_to_points h))) hs.
Proof.
  induction hs as [|h hs IH]; intros a v E; cbn [minus_holes_90] in E.
  - injection E as <-. unfold zsum; cbn [fold_right]. lia.
  - destruct (points_area (compact_to_points h)) as [u| |] eqn:E1; cbn [obind] in E; try discriminate.
    destruct (if u <? 0 then _ else _) as [b| |] eqn:E2; cbn [obind] in E; try discriminate.
    destruct (chk64 (a - b)) as [a'| |] eqn:E3; cbn [obind] in E; try discriminate.
    apply abs_neg in E2. apply chk64_inv' in E3. apply points_area_eq in E1; [|apply ctp_axis].
    rewrite (IH _ _ E), zsum_cons. lia.
Qed.
Lemma poly_area_90_eq g v : poly_area_90 g = Ok v ->
  2 * v = Z.abs (shoelace2 (compact_to_points (p_outer g))) - zsum (fun h => Z.abs (shoelace2 (compact_to_points h))) (p_holes g).
Proof.
  unfold poly_area_90. destruct (points_area _) as [u| |] eqn:E1; cbn [obind]; try discriminate.
  destruct (if u <? 0 then _ else _) as [b| |] eqn:E2; cbn [obind]; try discriminate.
  intros E. rewrite (minus_holes_90_eq _ _ _ E). apply abs_neg in E2. apply points_area_eq in E1; [|apply ctp_axis]. lia.
Qed.

(* ---------- is_45 ---------- *)
Lemma local_abs_inv v a : local_abs v = Ok a -> a = Z.abs v.
Proof. unfold local_abs. destruct (Z.ltb_spec v 0); intros E; [apply chk_inv in E|injection E as <-]; lia. Qed.
Lemma non45_inv a b r : non45 a b = Ok r -> (r = false <-> edge_45 (a, b)).
Proof.
  unfold non45, edge_45, axis_edge. cbn [fst snd].
  destruct (chk (px b - px a)) as [dx| |] eqn:E1; cbn [obind]; try discriminate.
  destruct (chk (py b - py a)) as [dy| |] eqn:E2; cbn [obind]; try discriminate.
  apply chk_inv in E1 as [-> _], E2 as [-> _].
  destruct (Z.eqb_spec (px b - px a) 0) as [X|X]; cbn [negb andb].
  { intros E. injection E as <-. split; [intros _; left; left; lia|reflexivity]. }
  destruct (Z.eqb_spec (py b - py a) 0) as [Y|Y]; cbn [negb].
  { intros E. injection E as <-. split; [intros _; left; right; lia|reflexivity]. }
  destruct (local_abs (px b - px a)) as [ax| |] eqn:E3; cbn [obind]; try discriminate.
  destruct (local_abs (py b - py a)) as [ay| |] eqn:E4; cbn [obind]; try discriminate.
  apply local_abs_inv in E3, E4. intros E. injection E as <-. subst.
  destruct (Z.eqb_spec (Z.abs (px b - px a)) (Z.abs (py b - py a))) as [W|W]; cbn [negb].
  - split; [intros _; right; exact W|reflexivity].
  - split; [discriminate|]. intros [[H|H]|H]; lia.
Qed.
Lemma is45_loop_inv f l : forall p r, is45_loop f p l = Ok r -> (r = true <-> Forall edge_45 (pedges ((p :: l) ++ [f]))).
Proof.
  induction l as [|q l IH]; intros p r E; cbn [is45_loop] in E.
  - destruct (non45 p f) as [b| |] eqn:E1; cbn [obind] in E; try discriminate. injection E as <-.
    apply non45_inv in E1. cbn [app pedges]. rewrite Forall_cons_iff, <- E1. destruct b; cbn [negb]; intuition (discriminate || constructor).
  - destruct (non45 p q) as [b| |] eqn:E1; cbn [obind] in E; try discriminate. apply non45_inv in E1.
    change (pedges ((p :: q :: l) ++ [f])) with ((p, q) :: pedges ((q :: l) ++ [f])). rewrite Forall_cons_iff, <- E1.
    destruct b.
    + injection E as <-. intuition discriminate.
    + rewrite (IH _ _ E). intuition.
Qed.
Lemma points_is45_inv l r : points_is45 l = Ok r -> (r = true <-> cycle_45 l).
Proof.
  destruct l as [|f t]; unfold points_is45, cycle_45; intros E.
  - injection E as <-. cbn [cyc_edges]. intuition constructor.
  - rewrite (is45_loop_inv _ _ _ _ E), cyc_pedges. reflexivity.
Qed.
Lemma is45_holes_inv o hs r : points_is45 o = Ok true -> is45_holes o hs = Ok r -> r = true.
Proof.
  intros H. induction hs as [|h hs IH]; cbn [is45_holes]; [congruence|]. rewrite H. cbn [obind]. exact IH.
Qed.
Lemma poly_is45_inv g r : poly_is45 g = Ok r -> (r = true <-> cycle_45 (g_outer g)).
Proof.
  unfold poly_is45. destruct (points_is45 (g_outer g)) as [b| |] eqn:E; cbn [obind]; try discriminate.
  pose proof (points_is45_inv _ _ E) as H. intros E2. destruct b.
  - apply (is45_holes_inv _ _ _ E) in E2. subst. tauto.
  - injection E2 as <-. tauto.
Qed.
(* no overflow if the coordinates are not too far apart *)
Lemma non45_ok a b : is_int (px b - px a) -> is_int (py b - py a) -> px b - px a <> - 2 ^ 31 -> py b - py a <> - 2 ^ 31 ->
  exists r, non45 a b = Ok r.
Proof.
  intros H1 H2 H3 H4. unfold non45. rewrite (chk_ok _ H1). cbn [obind]. rewrite (chk_ok _ H2). cbn [obind].
  destruct (_ && _)%bool; [|eauto]. unfold local_abs, is_int, INT_MIN, INT_MAX in *.
  destruct (Z.ltb_spec (px b - px a) 0); [rewrite chk_ok by (unfold is_int, INT_MIN, INT_MAX; lia)|]; cbn [obind];
  (destruct (Z.ltb_spec (py b - py a) 0); [rewrite chk_ok by (unfold is_int, INT_MIN, INT_MAX; lia)|]; cbn [obind]; eauto).
Qed.
Lemma is45_loop_ok f l : forall p, Forall (pt_fits (2 ^ 30 - 1)) (f :: p :: l) -> exists r, is45_loop f p l = Ok r.
Proof.
  assert (K : forall a b, pt_fits (2 ^ 30 - 1) a -> pt_fits (2 ^ 30 - 1) b -> exists r, non45 a b = Ok r).
  { intros a b [A1 A2] [B1 B2]. apply non45_ok; unfold is_int, INT_MIN, INT_MAX; lia. }
  induction l as [|q l IH]; intros p H; inversion H as [|? ? Hf H1]; subst; inversion H1 as [|? ? Hp H2]; subst; cbn [is45_loop].
  - destruct (K p f Hp Hf) as [r ->]. cbn [obind]. eauto.
  - inversion H2 as [|? ? Hq H3]; subst. destruct (K p q Hp Hq) as [r ->]. cbn [obind]. destruct r; [eauto|]. apply IH. constructor; assumption.
Qed.
Lemma points_is45_ok l : Forall (pt_fits (2 ^ 30 - 1)) l -> exists r, points_is45 l = Ok r.
Proof.
  intros H. destruct l as [|f t]; [eexists; reflexivity|]. apply is45_loop_ok. inversion H; subst. constructor; assumption.
Qed.
Lemma is45_holes_ok o hs : points_is45 o = Ok true -> is45_holes o hs = Ok true.
Proof. intros H. induction hs as [|h hs IH]; cbn [is45_holes]; [reflexivity|]. rewrite H. exact IH. Qed.

(* ---------- perimeter ---------- *)
Lemma pt_dist_o_inv p q o d : pt_dist_o p q o = Ok d -> d = Z.abs (pt_get p o - pt_get q o).
Proof.
  unfold pt_dist_o. destruct (chk _) as [v| |] eqn:E; cbn [obind]; try discriminate. apply chk_inv in E as [-> _].
  destruct (Z.ltb_spec (pt_get p o - pt_get q o) 0); intros E; [apply chk64_inv' in E|injection E as <-]; lia.
Qed.
Lemma pt_euclid_inv p q d : axis_edge (p, q) -> pt_euclid p q = Ok d -> d = edge_len (p, q).
Proof.
  intros A. unfold pt_euclid, pt_dist_sq.
  destruct (pt_dist_o p q Horizontal) as [dx| |] eqn:E1; cbn [obind]; try discriminate.
  destruct (pt_dist_o p q Vertical) as [dy| |] eqn:E2; cbn [obind]; try discriminate.
  destruct (chk64 (dx * dx)) as [a| |] eqn:E3; cbn [obind]; try discriminate.
  destruct (chk64 (dy * dy)) as [b| |] eqn:E4; cbn [obind]; try discriminate.
  destruct (chk64 (a + b)) as [c| |] eqn:E5; cbn [obind]; try discriminate.
  intros E. injection E as <-. apply chk64_inv' in E3, E4, E5. apply pt_dist_o_inv in E1, E2. cbn [pt_get] in E1, E2.
  unfold edge_len, axis_edge in *. cbn [fst snd] in *. subst a b c.
  destruct A as [A|A].
  - replace dx with 0 by lia. rewrite Z.mul_0_l, Z.add_0_l, Z.sqrt_square by lia. lia.
  - replace dy with 0 by lia. rewrite Z.mul_0_l, Z.add_0_r, Z.sqrt_square by lia. lia.
Qed.
Lemma edge_len_sym a b : edge_len (a, b) = edge_len (b, a).
Proof. unfold edge_len; cbn [fst snd]. lia. Qed.
Lemma axis_sym a b : axis_edge (a, b) -> axis_edge (b, a).
Proof. unfold axis_edge; cbn [fst snd]. intuition lia. Qed.
Lemma dist_loop_inv f l : forall p s v, Forall axis_edge (pedges ((p :: l) ++ [f])) -> dist_loop f p s l = Ok v ->
  v = s + zsum edge_len (pedges ((p :: l) ++ [f])).
Proof.
  induction l as [|q l IH]; intros p s v A E; cbn [dist_loop] in E.
  - cbn [app pedges] in A |- *. inversion A as [|? ? A1 _]; subst.
    destruct (pt_euclid p f) as [d| |] eqn:E1; cbn [obind] in E; try discriminate. apply chk64_inv' in E.
    rewrite zsum_cons. apply pt_euclid_inv in E1; [|exact A1]. unfold zsum; cbn [fold_right]. lia.
  - change (pedges ((p :: q :: l) ++ [f])) with ((p, q) :: pedges ((q :: l) ++ [f])) in A |- *.
    inversion A as [|? ? A1 A2]; subst. rewrite zsum_cons.
    destruct (pt_euclid q p) as [d| |] eqn:E1; cbn [obind] in E; try discriminate.
    destruct (chk64 (s + d)) as [s'| |] eqn:E2; cbn [obind] in E; try discriminate.
    apply chk64_inv' in E2. apply pt_euclid_inv in E1; [|apply axis_sym; exact A1].
    rewrite (IH _ _ _ A2 E). rewrite (edge_len_sym p q). lia.
Qed.
Lemma points_perimeter_inv l v : rectilinear l -> points_perimeter l = Ok v -> v = zsum edge_len (cyc_edges l).
Proof.
  unfold rectilinear. destruct l as [|f t]; unfold points_perimeter; intros A E.
  - injection E as <-. reflexivity.
  - rewrite cyc_pedges in A |- *. rewrite (dist_loop_inv _ _ _ _ _ A E). lia.
Qed.
Lemma plus_holes_inv hs : forall s v, plus_holes s hs = Ok v ->
  v = s + zsum (fun h => zsum edge_len (cyc_edges (compact_to_points h))) hs.
Proof.
  induction hs as [|h hs IH]; intros s v E; cbn [plus_holes] in E.
  - injection E as <-. unfold zsum; cbn [fold_right]. lia.
  - destruct (points_perimeter _) as [d| |] eqn:E1; cbn [obind] in E; try discriminate.
    destruct (chk64 (s + d)) as [s'| |] eqn:E2; cbn [obind] in E; try discriminate.
    apply chk64_inv' in E2. apply points_perimeter_inv in E1; [|apply ctp_axis].
    rewrite (IH _ _ E), zsum_cons. lia.
Qed.
Lemma poly_perimeter_inv g v : poly_perimeter_90 g = Ok v ->
  v = zsum edge_len (cyc_edges (compact_to_points (p_outer g))) +
      zsum (fun h => zsum edge_len (cyc_edges (compact_to_points h))) (p_holes g).
Proof.
  unfold poly_perimeter_90. destruct (points_perimeter _) as [d| |] eqn:E1; cbn [obind]; try discriminate.
  intros E. apply plus_holes_inv in E. apply points_perimeter_inv in E1; [|apply ctp_axis]. lia.
Qed.
(* the sum is defined for coordinates of less than 2^30 *)
Lemma pt_euclid_ok p q : pt_fits (2 ^ 30 - 1) p -> pt_fits (2 ^ 30 - 1) q -> axis_edge (p, q) ->
  pt_euclid p q = Ok (edge_len (p, q)) /\ 0 <= edge_len (p, q) < 2 ^ 31.
Proof.
  intros [P1 P2] [Q1 Q2] A.
  assert (D : forall o, pt_dist_o p q o = Ok (Z.abs (pt_get p o - pt_get q o))).
  { intros o. unfold pt_dist_o. assert (- (2 ^ 31 - 2) <= pt_get p o - pt_get q o <= 2 ^ 31 - 2) by (destruct o; cbn [pt_get]; lia).
    rewrite chk_ok by (unfold is_int, INT_MIN, INT_MAX; lia). cbn [obind].
    destruct (Z.ltb_spec (pt_get p o - pt_get q o) 0); [rewrite chk64_ok by lia|]; f_equal; lia. }
  assert (L : 0 <= edge_len (p, q) < 2 ^ 31) by (unfold edge_len, axis_edge in *; cbn [fst snd] in *; destruct A; lia).
  split; [|exact L].
  assert (Ex : exists v, pt_euclid p q = Ok v).
  { unfold pt_euclid, pt_dist_sq. rewrite !D. cbn [obind pt_get].
    set (u := Z.abs (px p - px q)). set (v := Z.abs (py p - py q)).
    assert (U : 0 <= u < 2 ^ 31) by (unfold u; lia). assert (V : 0 <= v < 2 ^ 31) by (unfold v; lia). clearbody u v.
    rewrite (chk64_ok (u * u)) by nia. cbn [obind]. rewrite (chk64_ok (v * v)) by nia. cbn [obind].
    rewrite (chk64_ok (u * u + v * v)) by nia. cbn [obind]. eauto. }
  destruct Ex as [v E]. rewrite E. f_equal. apply pt_euclid_inv; assumption.
Qed.
Lemma dist_loop_ok f l : forall p s k, Forall (pt_fits (2 ^ 30 - 1)) (f :: p :: l) -> Forall axis_edge (pedges ((p :: l) ++ [f])) ->
  0 <= s <= k * 2 ^ 31 -> 0 <= k -> (k + Z.of_nat (length l) + 1) * 2 ^ 31 < 2 ^ 63 -> exists v, dist_loop f p s l = Ok v.
Proof.
  induction l as [|q l IH]; intros p s k H A Hs Hk K; inversion H as [|? ? Hf H1]; subst; inversion H1 as [|? ? Hp H2]; subst; cbn [dist_loop].
  - cbn [app pedges] in A. inversion A as [|? ? A1 _]; subst. destruct (pt_euclid_ok p f Hp Hf A1) as [E L].
    rewrite E. cbn [obind]. cbn [length] in K. rewrite chk64_ok by lia. eauto.
  - change (pedges ((p :: q :: l) ++ [f])) with ((p, q) :: pedges ((q :: l) ++ [f])) in A.
    inversion A as [|? ? A1 A2]; subst. inversion H2 as [|? ? Hq H3]; subst.
    destruct (pt_euclid_ok q p Hq Hp (axis_sym _ _ A1)) as [E L]. rewrite E. cbn [obind]. cbn [length] in K.
    rewrite chk64_ok by lia. cbn [obind]. apply (IH q _ (k + 1)); try assumption; try lia. constructor; assumption.
Qed.
Lemma points_perimeter_ok l : Forall (pt_fits (2 ^ 30 - 1)) l -> rectilinear l -> Z.of_nat (length l) < 2 ^ 32 ->
  exists v, points_perimeter l = Ok v.
Proof.
  unfold rectilinear. destruct l as [|f t]; intros H A K; [eexists; reflexivity|]. rewrite cyc_pedges in A.
  cbn [length] in K. inversion H; subst. apply (dist_loop_ok f t f 0 0); try assumption; try lia. constructor; assumption.
Qed.

(* ---------- extents ---------- *)
Definition tight (l : list point) (r : rect) : Prop :=
  (forall p, In p l -> xl r <= px p <= xh r /\ yl r <= py p <= yh r) /\
  (exists p, In p l /\ px p = xl r) /\ (exists p, In p l /\ px p = xh r) /\
  (exists p, In p l /\ py p = yl r) /\ (exists p, In p l /\ py p = yh r).
Lemma encompass_tight l r p : tight l r -> tight (l ++ [p]) (snd (r_encompass_pt r p)).
Proof.
  intros [A [[p1 [B1 C1]] [[p2 [B2 C2]] [[p3 [B3 C3]] [p4 [B4 C4]]]]]].
  assert (W : rect_ok r) by (destruct (A p1 B1); unfold rect_ok; lia).
  rewrite (r_encompass_pt_as _ _ W), r_encompass_eq by (try exact W; unfold rect_ok; cbn [xl xh yl yh]; lia).
  unfold r_hull, tight. cbn [snd xl xh yl yh].
  assert (IN : forall q, In q l -> In q (l ++ [p])) by (intros; apply in_or_app; left; assumption).
  assert (INP : In p (l ++ [p])) by (apply in_or_app; right; left; reflexivity).
  assert (AP : forall q, In q (l ++ [p]) -> q = p \/ xl r <= px q <= xh r /\ yl r <= py q <= yh r).
  { intros q Hq. apply in_app_or in Hq as [Hq|[Hq|[]]]; [right; apply A; exact Hq|left; congruence]. }
  split; [intros q Hq; destruct (AP q Hq) as [->|[H1 H2]]; lia|]. repeat split.
  - destruct (Z_le_gt_dec (xl r) (px p)); [exists p1; split; [apply IN; assumption|lia]|exists p; split; [exact INP|lia]].
  - destruct (Z_le_gt_dec (px p) (xh r)); [exists p2; split; [apply IN; assumption|lia]|exists p; split; [exact INP|lia]].
  - destruct (Z_le_gt_dec (yl r) (py p)); [exists p3; split; [apply IN; assumption|lia]|exists p; split; [exact INP|lia]].
  - destruct (Z_le_gt_dec (py p) (yh r)); [exists p4; split; [apply IN; assumption|lia]|exists p; split; [exact INP|lia]].
Qed.
Lemma ext_loop_tight l : forall m r, tight m r -> tight (m ++ l) (ext_loop r l).
Proof.
  induction l as [|p l IH]; intros m r H; cbn [ext_loop]; [rewrite app_nil_r; exact H|].
  change (m ++ p :: l) with (m ++ [p] ++ l). rewrite app_assoc. apply IH, encompass_tight, H.
Qed.
Lemma points_extents_spec box l :
  (l = [] -> points_extents box l = (false, box)) /\
  (l <> [] -> fst (points_extents box l) = true /\ tight l (snd (points_extents box l))).
Proof.
  destruct l as [|p l]; split; intros H; try congruence; [reflexivity|]. cbn [points_extents fst snd]. split; [reflexivity|].
  change (p :: l) with ([p] ++ l). apply ext_loop_tight.
  assert (E : r_set_points p p = mk_rect (px p) (px p) (py p) (py p)).
  { unfold r_set_points, ivl_make, r_of_ivls. destruct (_ >? _) eqn:?; destruct (py p >? py p); reflexivity. }
  rewrite E. unfold tight; cbn [xl xh yl yh].
  split; [intros q [<-|[]]; lia|]. repeat split; exists p; (split; [left; reflexivity|reflexivity]).
Qed.
Lemma tight_box l r : tight l r -> box_of l r.
Proof.
  intros [A [[p1 [B1 C1]] [[p2 [B2 C2]] [[p3 [B3 C3]] [p4 [B4 C4]]]]]]. unfold box_of, in_rectq, in_ivl, horizontal, vertical, qpt. cbn [lo hi fst snd].
  split.
  - intros p Hp. destruct (A p Hp). rewrite <- !Zle_Qle. lia.
  - intros s H q [[Q1 Q2] [Q3 Q4]].
    pose proof (H p1 B1) as H1. pose proof (H p2 B2) as H2. pose proof (H p3 B3) as H3. pose proof (H p4 B4) as H4.
    rewrite C1 in H1. rewrite C2 in H2. rewrite C3 in H3. rewrite C4 in H4. lra.
Qed.
