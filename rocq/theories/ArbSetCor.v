(* Sets of polygons: what is inserted, equality. *)
From Verif Require Import Base Units Outcome Scan90Spec Poly90Spec Poly90Model Poly90Proofs GeoSpec IvlModel RectModel SegModel PolySpec PolyModel PolyEdge PolyArea ScanBaseModel ScanBaseOab ScanBaseCross SnapModel SnapSpec SnapNode SnapChain SnapLoops SnapProofs SnapCor ArbSpec ArbOrder ArbSums ArbModel ArbMaps ArbLess ArbLine ArbColumn ArbScan ArbBool ArbResult ArbSnap ArbSetModel ArbSetProofs.
From Coq Require Import Reals Lra Sorting.Sorted Sorting.Permutation.

(* ---------- polygons ---------- *)
Lemma good_app a b : good_edges a -> good_edges b -> good_edges (a ++ b).
Proof. intros A B e H. apply in_app_or in H as [H|H]; auto. Qed.
Lemma closed_app a b : closed (as_set a) -> closed (as_set b) -> closed (as_set (a ++ b)).
Proof. intros A B k v. rewrite as_app, !tot_app, A, B. reflexivity. Qed.
Lemma depth_app a b x y : depth_below (as_set (a ++ b)) 0 x y = depth_below (as_set a) 0 x y + depth_below (as_set b) 0 x y.
Proof. unfold depth_below. rewrite as_app, tot_app. reflexivity. Qed.
Definition sign (hole : bool) : Z := if hole then -1 else 1.
Definition of_rings (rs : list (list point)) (a : list pedge) : Prop :=
  good_edges a /\ closed (as_set a) /\ forall s, In s (map fst a) -> exists r e, In r rs /\ In e (cyc_edges r) /\ (s = mk_seg (fst e) (snd e) \/ s = mk_seg (snd e) (fst e)).
Lemma of_app rs rs' a b : of_rings rs a -> of_rings rs' b -> of_rings (rs ++ rs') (a ++ b).
Proof.
  intros [A1 [A2 A3]] [B1 [B2 B3]]. split; [apply good_app; assumption|]. split; [apply closed_app; assumption|]. intros s H. rewrite map_app in H. apply in_app_or in H as [H|H].
  - destruct (A3 s H) as [r [e [R X]]]. exists r, e. split; [apply in_or_app; left; exact R|exact X].
  - destruct (B3 s H) as [r [e [R X]]]. exists r, e. split; [apply in_or_app; right; exact R|exact X].
Qed.
Lemma ring_ok w hole pts a : insert_ring w hole pts = Ok a -> ring_fits pts -> of_rings [pts] a /\ forall x y, depth_below (as_set a) 0 x y = sign hole * oriented_r pts x y.
Proof.
  intros H F. unfold insert_ring in H. destruct (points_ccw_d w pts) as [ccw| |] eqn:C; cbn [obind] in H; try discriminate. assert (E : a = insert_vseq ccw hole pts) by congruence. subst a.
  split; [split; [apply vseq_good, F|]; split; [apply vseq_closed|]; intros s K; destruct (vseq_on _ _ _ _ K) as [e E]; exists pts, e; split; [left; reflexivity|exact E]|].
  intros x y. rewrite vseq_depth. unfold oriented_r, sgn, sign.
  assert (W : ccw = (0 <? shoelace2 pts)).
  { unfold points_ccw_d in C. destruct (points_area_d w pts) as [v| |] eqn:E; cbn [obind] in C; try discriminate. rewrite (points_area_d_eq _ _ _ E) in C. assert (ccw = (- shoelace2 pts <? 0)) by congruence. subst ccw. apply ArbSums.bool_eq. rewrite !Z.ltb_lt. lia. }
  rewrite <- W. destruct ccw, hole; lia.
Qed.
Lemma rings_ok w hole hs : forall a, insert_rings w hole hs = Ok a -> (forall h, In h hs -> ring_fits h) -> of_rings hs a /\ forall x y, depth_below (as_set a) 0 x y = sign hole * zsum (fun h => oriented_r h x y) hs.
Proof.
  induction hs as [|h hs IH]; intros a H F; cbn [insert_rings] in H.
  - assert (a = []) by congruence. subst a. split; [split; [intros e []|]; split; [intros k v; reflexivity|intros s []]|]. intros x y. change (zsum (fun h => oriented_r h x y) []) with 0. change (depth_below (as_set []) 0 x y) with 0. lia.
  - destruct (insert_ring w hole h) as [a1| |] eqn:E1; cbn [obind] in H; try discriminate. destruct (insert_rings w hole hs) as [a2| |] eqn:E2; cbn [obind] in H; try discriminate. assert (a = a1 ++ a2) by congruence. subst a.
    destruct (ring_ok w hole h a1 E1 (F h (or_introl eq_refl))) as [O1 D1]. destruct (IH a2 eq_refl (fun g G => F g (or_intror G))) as [O2 D2].
    split; [apply (of_app [h] hs); assumption|]. intros x y. rewrite depth_app, D1, D2. unfold zsum. cbn [fold_right]. lia.
Qed.
Lemma polygon_ok w hole g a : insert_polygon w hole g = Ok a -> poly_fits g -> of_rings (rings g) a /\ forall x y, depth_below (as_set a) 0 x y = sign hole * poly_r (g_outer g) (g_holes g) x y.
Proof.
  intros H F. unfold insert_polygon in H. destruct (insert_ring w hole (g_outer g)) as [a1| |] eqn:E1; cbn [obind] in H; try discriminate. destruct (insert_rings w (negb hole) (g_holes g)) as [a2| |] eqn:E2; cbn [obind] in H; try discriminate. assert (a = a1 ++ a2) by congruence. subst a.
  destruct (ring_ok w hole _ a1 E1 (F _ (or_introl eq_refl))) as [O1 D1]. destruct (rings_ok w (negb hole) _ a2 E2 (fun h K => F h (or_intror K))) as [O2 D2].
  split; [apply (of_app [g_outer g] (g_holes g)); assumption|]. intros x y. rewrite depth_app, D1, D2. unfold poly_r, sign. destruct hole; cbn [negb]; lia.
Qed.
Lemma polygons_ok w gs : forall a, insert_polygons w gs = Ok a -> (forall g, In g gs -> poly_fits g) -> of_rings (flat_map rings gs) a /\ forall x y, depth_below (as_set a) 0 x y = polys_r gs x y.
Proof.
  induction gs as [|g gs IH]; intros a H F; cbn [insert_polygons] in H.
  - assert (a = []) by congruence. subst a. split; [split; [intros e []|]; split; [intros k v; reflexivity|intros s []]|]. intros x y. reflexivity.
  - destruct (insert_polygon w false g) as [a1| |] eqn:E1; cbn [obind] in H; try discriminate. destruct (insert_polygons w gs) as [a2| |] eqn:E2; cbn [obind] in H; try discriminate. assert (a = a1 ++ a2) by congruence. subst a.
    destruct (polygon_ok w false g a1 E1 (F g (or_introl eq_refl))) as [O1 D1]. destruct (IH a2 eq_refl (fun h G => F h (or_intror G))) as [O2 D2].
    split; [apply (of_app (rings g) (flat_map rings gs)); assumption|]. intros x y. rewrite depth_app, D1, D2. unfold polys_r, zsum, sign. cbn [fold_right]. lia.
Qed.

(* ---------- an empty result ---------- *)
Lemma own_one r e c : NoDup (map fst r) -> In (e, c) r -> own (as_set r) 0 e = c.
Proof.
  intros N H. unfold own, as_set. rewrite tot_map. unfold wt. cbn [fst snd Z.eqb]. revert N H. induction r as [|[f d] r IH]; intros N H; [destruct H|]. cbn [map fst] in N. inversion N as [|? ? N1 N2]; subst. cbn [tot fst snd]. destruct H as [H|H].
  - assert (f = e) by congruence. assert (d = c) by congruence. subst. rewrite (proj2 (eq_seg_iff e e) eq_refl). rewrite tot_zero; [lia|]. intros [g b] G. cbn [fst snd]. destruct (eq_seg g e) eqn:Q; [|reflexivity]. apply eq_seg_iff in Q. subst g. exfalso. apply N1. apply (in_map fst _ _ G).
  - destruct (eq_seg f e) eqn:Q; [apply eq_seg_iff in Q; subst f; exfalso; apply N1, (in_map fst _ _ H)|]. rewrite (IH N2 H). lia.
Qed.
Lemma as_fst r : map fst (as_set r) = map fst r.
Proof. unfold as_set. rewrite map_map. reflexivity. Qed.
Lemma no_depth r : NoDup (map fst r) -> noded (map fst r) -> good_edges r -> (forall e c, In (e, c) r -> c = 1 \/ c = -1) -> closed (as_set r) ->
  (forall x y, depth_below (as_set r) 0 x y = 0 /\ depth_above (as_set r) 0 x y = 0 /\ depth_below_left (as_set r) 0 x y = 0) -> r = [].
Proof.
  intros N ND G C1 CL D. destruct r as [|[e c] r0] eqn:ER; [reflexivity|]. exfalso. rewrite <- ER in *.
  assert (IN : In (e, c) r) by (rewrite ER; left; reflexivity). pose proof (own_one r e c N IN) as OW. pose proof (C1 e c IN) as CC.
  assert (nod : noded (map fst (as_set r))) by (rewrite as_fst; exact ND).
  assert (ord : forall f, In f (as_set r) -> ordered (fst f)) by (intros f F; unfold as_set in F; apply in_map_iff in F as [p [<- F]]; cbn [fst]; apply G, F).
  assert (He : In e (map fst (as_set r))) by (rewrite as_fst; apply (in_map fst _ _ IN)).
  assert (O : ordered e) by (apply (G _ IN)). apply ordered_iff in O. destruct (Z.eq_dec (px (s_low e)) (px (s_high e))) as [V|NV].
  - assert (Ve : vertical_edge e = true) by (apply vertical_edge_iff, V). pose proof (vert_own (as_set r) nod ord 0 e He Ve) as VO. pose proof (green (as_set r) ord CL 0 (px (s_low e)) (IZR (py (s_high e)))) as GR.
    destruct (D (IZR (px (s_low e))) (IZR (py (s_high e)))) as [D1 [_ D3]]. lia.
  - set (x := ((IZR (px (s_low e)) + IZR (px (s_high e))) / 2)%R). assert (L : (IZR (px (s_low e)) < IZR (px (s_high e)))%R) by (apply IZR_lt; lia).
    assert (I : inr e x) by (unfold inr, x; lra). pose proof (above_below (as_set r) nod ord 0 e x He I) as AB. destruct (D x (height e x)) as [D1 [D2 _]]. lia.
Qed.

(* ---------- equality ---------- *)
Lemma set_eq_axis a b : good_edges a -> good_edges b -> closed (as_set a) -> closed (as_set b) -> axis_parallel a -> axis_parallel b ->
  exists c, set_eq a b = Ok c /\
    (c = true <-> forall x y, (0 < depth_below (as_set a) 0 x y <-> 0 < depth_below (as_set b) 0 x y) /\ (0 < depth_above (as_set a) 0 x y <-> 0 < depth_above (as_set b) 0 x y) /\ (0 < depth_below_left (as_set a) 0 x y <-> 0 < depth_below_left (as_set b) 0 x y)).
Proof.
  intros GA GB CA CB AA AB. destruct (exec_main OpXor a b GA GB CA CB) as [r [E [N [ND [G [C1 [CL [_ [_ D]]]]]]]]]. specialize (D AA AB).
  unfold set_eq, set_op. rewrite (insert_set_ordered a GA), (insert_set_ordered b GB), E. cbn [obind]. eexists. split; [reflexivity|].
  assert (Q : forall p q, covers OpXor p q = 0 <-> (0 < p <-> 0 < q)).
  { intros p q. unfold covers, keeps. destruct (0 <? p) eqn:P1, (0 <? q) eqn:Q1; cbn [xorb]; split; intros H; try discriminate; lia. }
  split.
  - intros H x y. assert (r = []) by (destruct r; [reflexivity|discriminate]). subst r. destruct (D x y) as [D1 [D2 D3]]. split; [|split]; apply Q; symmetry; [exact D1|exact D2|exact D3].
  - intros H. rewrite (no_depth r N ND G C1 CL); [reflexivity|]. intros x y. destruct (H x y) as [H1 [H2 H3]]. destruct (D x y) as [D1 [D2 D3]]. rewrite D1, D2, D3. split; [|split]; apply Q; assumption.
Qed.
Lemma set_eq_away a b x y : good_edges a -> good_edges b -> closed (as_set a) -> closed (as_set b) -> set_eq a b = Ok true -> away (map fst a ++ map fst b) x y ->
  (0 < depth_below (as_set a) 0 x y <-> 0 < depth_below (as_set b) 0 x y).
Proof.
  intros GA GB CA CB H AW. destruct (exec_main OpXor a b GA GB CA CB) as [r [E [_ [_ [_ [_ [_ [_ [D _]]]]]]]]]. specialize (D x y AW).
  unfold set_eq, set_op in H. rewrite (insert_set_ordered a GA), (insert_set_ordered b GB), E in H. cbn [obind] in H. assert (r = []) by (destruct r; [reflexivity|discriminate]). subst r. change (depth_below (as_set []) 0 x y) with 0 in D.
  unfold covers, keeps in D. destruct (0 <? depth_below (as_set a) 0 x y) eqn:P1, (0 <? depth_below (as_set b) 0 x y) eqn:Q1; cbn [xorb] in D; try discriminate; split; intros K; lia.
Qed.

(* a set equals itself, and every set with the same edges *)
Lemma highs_path : forall ts us p q, path p ts q -> path p us q -> map s_high ts = map s_high us -> ts = us.
Proof.
  induction ts as [|t ts IH]; intros us p q P Q H; destruct us as [|u us]; try discriminate; [reflexivity|]. cbn [path map] in *. destruct P as [P1 P2], Q as [Q1 Q2].
  assert (HE : s_high t = s_high u) by congruence. assert (t = u) by (destruct t as [t1 t2], u as [u1 u2]; cbn [s_low s_high] in *; congruence). subst u. f_equal. apply (IH us (s_high t) q); [exact P2|exact Q2|congruence].
Qed.
Lemma sorted_same s a : forall b, StronglySorted (o_lt (asc s)) a -> StronglySorted (o_lt (asc s)) b -> (forall c, In c a <-> In c b) -> a = b.
Proof.
  assert (IR : forall p, ~ o_lt (asc s) p p) by (intros p P; exact (ord_irrefl _ _ P)). assert (AS : forall p q, o_lt (asc s) p q -> ~ o_lt (asc s) q p) by (intros p q H K; exact (ord_asym _ _ _ H K)).
  induction a as [|p a IH]; intros b A B H.
  - destruct b as [|q b]; [reflexivity|]. exfalso. apply (H q). left. reflexivity.
  - destruct b as [|q b]; [exfalso; apply (H p); left; reflexivity|]. apply StronglySorted_inv in A as [A FA]. apply StronglySorted_inv in B as [B FB]. rewrite Forall_forall in FA, FB.
    assert (p = q). { destruct (proj1 (H p) (or_introl eq_refl)) as [K|K]; [congruence|]. destruct (proj2 (H q) (or_introl eq_refl)) as [J|J]; [congruence|]. exfalso. apply (AS p q (FA q J) (FB p K)). }
    subst q. f_equal. apply IH; [exact A|exact B|]. intros c. split; intros K.
    + destruct (proj1 (H c) (or_intror K)) as [J|J]; [|exact J]. subst c. exfalso. apply (IR p), FA, K.
    + destruct (proj2 (H c) (or_intror K)) as [J|J]; [|exact J]. subst c. exfalso. apply (IR p), FB, K.
Qed.
Lemma pieces_same l out i j s : (forall s, In s l -> seg_small s) -> intersect_segments l = Ok out -> 0 <= i -> 0 <= j -> nth_error l (Z.to_nat i) = Some s -> nth_error l (Z.to_nat j) = Some s -> pieces i out = pieces j out.
Proof.
  intros SM OUT I J NI NJ. destruct (result_main l out SM OUT) as [hot [w [_ [_ [C _]]]]]. destruct (C i s I NI) as [W1 [_ [_ [_ [P1 E1]]]]]. destruct (C j s J NJ) as [W2 [_ [_ [_ [P2 E2]]]]].
  assert (w i = w j) as EW. { apply (sorted_same s); [apply W1|apply W2|]. intros c. rewrite (proj2 W1 c), (proj2 W2 c). reflexivity. }
  apply (highs_path _ _ _ _ P1 P2). rewrite E1, E2 in EW. congruence.
Qed.
Lemma idx_app {A : Type} (l m : list A) : forall b, idx b (l ++ m) = idx b l ++ idx (b + Z.of_nat (length l)) m.
Proof. induction l as [|a l IH]; intros b; cbn [app idx length]; [f_equal; lia|]. rewrite IH. cbn [app]. do 3 f_equal. lia. Qed.
Lemma idx_map {A B : Type} (f : A -> B) (l : list A) : forall b, idx b (map f l) = map (fun p => (f (fst p), snd p + b)) (idx 0 l).
Proof.
  assert (H : forall l b c, idx (b + c) (map f l) = map (fun p => (f (fst p), snd p + c)) (idx b l)).
  { clear l. induction l as [|a l IH]; intros b c; [reflexivity|]. cbn [map idx fst snd]. f_equal. replace (b + c + 1) with (b + 1 + c) by lia. apply IH. }
  intros b. replace b with (0 + b) at 1 by lia. apply H.
Qed.
Lemma self_same (a : list pedge) out (f : seg -> Z -> Z) : good_edges a -> intersect_segments (map fst (both a a)) = Ok out -> (forall s, f s 0 = 0) ->
  tot (fun e => f (fst e) (wt 0 e)) (pcs (both a a) out) = tot (fun e => f (fst e) (wt 1 e)) (pcs (both a a) out).
Proof.
  intros G OUT F0. pose proof (both_good a a G G) as GB. rewrite !(pcs_tot (both a a) GB (map fst (both a a)) (asc_fst _ GB) out OUT). unfold both at 1 2. rewrite !idx_app, !tot_app, !idx_map, !tot_map. rewrite map_length. cbn [fst snd].
  rewrite (tot_zero (fun b : pedge * Z => tot _ (pieces (snd b + (0 + Z.of_nat (length a))) out))), Z.add_0_r.
  2:{ intros p _. apply tot_zero. intros o _. unfold wt. cbn [conv fst snd with_id]. apply F0. }
  rewrite (tot_zero (fun b : pedge * Z => tot (fun o => f (fst (conv (fst (with_id 0 (fst b))) (fst (snd (with_id 0 (fst b)))) (snd (snd (with_id 0 (fst b)))) o)) (wt 1 _)) (pieces (snd b + 0) out))), Z.add_0_l.
  2:{ intros p _. apply tot_zero. intros o _. unfold wt. cbn [conv fst snd with_id]. apply F0. }
  apply tot_ext. intros [e i] H. apply idx_in in H as [I N]. rewrite Z.sub_0_r in N. cbn [fst snd with_id].
  assert (NL : nth_error (map fst (both a a)) (Z.to_nat i) = Some (fst e)).
  { unfold both. rewrite map_app, !map_map. cbn [with_id fst]. rewrite nth_error_app1; [apply map_nth_error, N|]. rewrite map_length. apply nth_error_Some. congruence. }
  assert (NR : nth_error (map fst (both a a)) (Z.to_nat (i + Z.of_nat (length a))) = Some (fst e)).
  { unfold both. rewrite map_app, !map_map. cbn [with_id fst]. rewrite nth_error_app2; rewrite map_length; [|lia]. replace (Z.to_nat (i + Z.of_nat (length a)) - length a)%nat with (Z.to_nat i) by lia. apply map_nth_error, N. }
  rewrite (pieces_same (map fst (both a a)) out (i + 0) (i + (0 + Z.of_nat (length a))) (fst e)); [|intros s S; apply in_map_iff in S as [q [<- S]]; apply fits_small, GB, S|exact OUT|lia|lia|replace (i + 0) with i by lia; exact NL|replace (i + (0 + Z.of_nat (length a))) with (i + Z.of_nat (length a)) by lia; exact NR].
  apply tot_ext. intros o _. reflexivity.
Qed.
Theorem set_eq_refl (a : list pedge) : good_edges a -> closed (as_set a) -> set_eq a a = Ok true.
Proof.
  intros G CL. unfold set_eq, set_op. rewrite (insert_set_ordered a G). destruct a as [|e0 a0] eqn:EA; [reflexivity|]. rewrite <- EA in *.
  assert (NE : both a a <> []) by (rewrite EA; discriminate). destruct (exec_core OpXor a a G G CL CL NE) as [out [r [OUT [E [R1 [R2 [R3 R4]]]]]]]. rewrite E. cbn [obind].
  rewrite (no_depth r); [reflexivity|exact R1| | |intros e c H; apply (R2 e c H)|exact R3|].
  - apply (noded_in (map fst (pcs (both a a) out))); [intros e H; apply in_map_iff in H as [[e' c] [<- H]]; apply (R2 _ _ H)|apply (pcs_noded _ (both_good a a G G) _ (asc_fst _ (both_good a a G G)) out OUT)].
  - intros [e c] H. cbn [fst]. apply R2 in H as [H _]. apply in_map_iff in H as [t [<- H]]. apply (pcs_good _ (both_good a a G G) _ (asc_fst _ (both_good a a G G)) out OUT t H).
  - intros x y. destruct (R4 x y) as [D1 [D2 D3]]. rewrite D1, D2, D3. unfold kept, keeps.
    assert (S1 : depth_below (pcs (both a a) out) 0 x y = depth_below (pcs (both a a) out) 1 x y) by (apply (self_same a out (fun s w => if spans_r s x && rltb (height s x) y then w else 0) G OUT); intros s; destruct (_ && _); reflexivity).
    assert (S2 : depth_above (pcs (both a a) out) 0 x y = depth_above (pcs (both a a) out) 1 x y) by (apply (self_same a out (fun s w => if spans_r s x && rleb (height s x) y then w else 0) G OUT); intros s; destruct (_ && _); reflexivity).
    assert (S3 : depth_below_left (pcs (both a a) out) 0 x y = depth_below_left (pcs (both a a) out) 1 x y) by (apply (self_same a out (fun s w => if spans_l s x && rltb (height s x) y then w else 0) G OUT); intros s; destruct (_ && _); reflexivity).
    rewrite S1, S2, S3, !xorb_nilpotent. auto.
Qed.
