(* C52: the polygons of Manhattan polygon sets.
   [forms ps P] (PolyFormSpec): every polygon of ps has a counterclockwise outer
   curve and clockwise holes inside it, and the polygons cover exactly P without
   overlap. [ps_get_polygons fr s] is get(polygons) with holes ([fr = false]) or
   with the holes cut open into the outer curve ([fr = true]); the second
   component is the set after the call. *)
From Verif Require Import Base Units Outcome Scan90Spec Poly90Spec PolySpec BoolOpModel Set90Spec Set90Model Set90Proofs Set90Cor RectFormProofs
  PolyFormSpec PolyFormModel PolyFormColumns PolyFormCor PolyFormTight.

(* three rectangles with four holes, of which three touch or overlap each other *)
Definition demo52 (o : orient) : list op :=
  [ONew 0 o; OInsertRect 0 (mk_rect 0 10 0 10) false; OInsertRect 0 (mk_rect 10 12 10 12) false; OInsertRect 0 (mk_rect 14 20 3 4) false;
   OInsertRect 0 (mk_rect 2 4 2 4) true; OInsertRect 0 (mk_rect 2 5 6 8) true; OInsertRect 0 (mk_rect 4 6 4 5) true; OInsertRect 0 (mk_rect 7 8 3 4) true].
Lemma demo52_ok o : Forall op_ok (demo52 o).
Proof.
  unfold demo52. repeat (constructor; [cbn [op_ok]; unfold rect_ok, is_int, INT_MIN, INT_MAX; cbn [xl xh yl yh]; try exact I; lia|]).
  constructor.
Qed.
Definition demo52_store (o : orient) : store := match run start (demo52 o) with Ok (st, _) => st | _ => start end.
Lemma demo52_reachable o : reachable (demo52_store o).
Proof. exists (demo52 o), []. split; [exact (demo52_ok o)|]. destruct o; reflexivity. Qed.

(* get never meets undefined behaviour, covers the region exactly, and leaves
   the region of the set as it was *)
Theorem C52_get_polygons : forall st i fr, reachable st -> exists ps s, ps_get_polygons fr (st i) = Some (ps, s) /\
  forms ps (ps_covers (st i)) /\ (fr = true -> Forall (fun p => p_holes p = []) ps) /\
  ps_orient s = ps_orient (st i) /\ (forall x y, ps_covers s x y <-> ps_covers (st i) x y).
Proof. exact get_polygons_cor. Qed.
Print Assumptions C52_get_polygons.

(* the scan itself, for any clean vertex data with int coordinates *)
Theorem C52_scan : forall fr V, clean_data V -> Set90Lemmas.dint V -> exists ps, get_polygons fr Vertical V = Some ps /\
  forms ps (fun x y => 0 < cnt V x y).
Proof.
  intros fr V CD D. destruct (get_polygons_spec V fr Vertical CD D) as [ps [E [F [_ [W _]]]]]. exists ps. split; [exact E|]. split; [exact F|].
  intros x y. specialize (W x y). cbn [PolyFormRead.turn] in W. rewrite W. destruct (cd_01 V CD x y); split; lia.
Qed.
Print Assumptions C52_scan.

(* a cell belongs to at most one polygon, and to at most one of its holes *)
Theorem C52_disjoint : forall ps P, forms ps P -> forall x y,
  (forall a b c p q, ps = a ++ p :: b ++ q :: c -> poly_winding p x y = 1 -> poly_winding q x y = 0) /\
  (forall p, In p ps -> forall h1 h2 a b c, p_holes p = a ++ h1 :: b ++ h2 :: c ->
    winding_number (ring_points h1) x y = -1 -> winding_number (ring_points h2) x y = 0 /\ winding_number (ring_points (p_outer p)) x y = 1).
Proof.
  intros ps P [F C] x y. split.
  - intros a b c p q E Hp. assert (L : polys_winding ps x y <= 1).
    { destruct (C x y) as [C1 C2]. destruct (Z_le_dec (polys_winding ps x y) 1) as [Q|Q]; [exact Q|exfalso]. assert (N : ~ P x y) by (intros K; rewrite (C1 K) in Q; lia). rewrite (C2 N) in Q. lia. }
    rewrite E in L. unfold polys_winding in L. rewrite PolyFormGaps.zsum_app in L. cbn [zsum fold_right] in L.
    change (fold_right (fun a s => poly_winding a x y + s) 0 (b ++ q :: c)) with (zsum (fun p => poly_winding p x y) (b ++ q :: c)) in L. rewrite PolyFormGaps.zsum_app in L. cbn [zsum fold_right] in L.
    change (fold_right (fun a s => poly_winding a x y + s) 0 c) with (zsum (fun p => poly_winding p x y) c) in L.
    rewrite E in F. rewrite Forall_forall in F.
    assert (Nn : forall r, In r a \/ In r b \/ In r c \/ r = q -> 0 <= poly_winding r x y).
    { intros r Hr. assert (Hin : In r (a ++ p :: b ++ q :: c)) by (rewrite in_app_iff; cbn [In]; rewrite in_app_iff; cbn [In]; intuition congruence).
      destruct (F r Hin) as [_ [_ K]]. specialize (K x y). lia. }
    assert (Na : 0 <= zsum (fun p => poly_winding p x y) a) by (apply zsum_nonneg; intros r Hr; apply Nn; tauto).
    assert (Nb : 0 <= zsum (fun p => poly_winding p x y) b) by (apply zsum_nonneg; intros r Hr; apply Nn; tauto).
    assert (Nc : 0 <= zsum (fun p => poly_winding p x y) c) by (apply zsum_nonneg; intros r Hr; apply Nn; tauto).
    assert (Nq : 0 <= poly_winding q x y) by (apply Nn; tauto). lia.
  - intros p Hp h1 h2 a b c E H1. rewrite Forall_forall in F. destruct (F p Hp) as [[_ O] [H W]]. specialize (O x y). specialize (W x y). unfold poly_winding in W. rewrite E in W, H.
    rewrite PolyFormGaps.zsum_app in W. cbn [zsum fold_right] in W.
    change (fold_right (fun h s => winding_number (ring_points h) x y + s) 0 (b ++ h2 :: c)) with (zsum (fun h => winding_number (ring_points h) x y) (b ++ h2 :: c)) in W. rewrite PolyFormGaps.zsum_app in W. cbn [zsum fold_right] in W.
    change (fold_right (fun h s => winding_number (ring_points h) x y + s) 0 c) with (zsum (fun h => winding_number (ring_points h) x y) c) in W.
    rewrite Forall_forall in H.
    assert (Nn : forall r, In r a \/ In r b \/ In r c \/ r = h2 -> winding_number (ring_points r) x y <= 0).
    { intros r Hr. assert (Hin : In r (a ++ h1 :: b ++ h2 :: c)) by (rewrite in_app_iff; cbn [In]; rewrite in_app_iff; cbn [In]; intuition congruence). destruct (H r Hin) as [_ K]. specialize (K x y). lia. }
    assert (Sm : forall l, (forall r, In r l -> winding_number (ring_points r) x y <= 0) -> zsum (fun h => winding_number (ring_points h) x y) l <= 0).
    { intros l Hl. pose proof (zsum_nonneg (fun h => - winding_number (ring_points h) x y) l) as K. rewrite PolyCycle.zsum_opp in K. destruct K as [K _]; [intros r Hr; specialize (Hl r Hr); lia|lia]. }
    pose proof (Sm a ltac:(intros r Hr; apply Nn; tauto)). pose proof (Sm b ltac:(intros r Hr; apply Nn; tauto)). pose proof (Sm c ltac:(intros r Hr; apply Nn; tauto)).
    pose proof (Nn h2 ltac:(tauto)). lia.
Qed.
Print Assumptions C52_disjoint.

(* inserting the polygons into a new set gives a set that compares equal; the
   area of a polygon may overflow, but not within poly_fits *)
Theorem C52_polygons_roundtrip : forall st i fr ps s, reachable st -> ps_get_polygons fr (st i) = Some (ps, s) ->
  match fold_left (fun r p => obind r (fun s => ps_insert_poly s p false)) ps (Ok (ps_new (ps_orient (st i)))) with
  | Ok t => exists t1 t2, ps_eq t (st i) = Some (true, (t1, t2))
  | Overflow => forall B, ~ Forall (poly_fits B) ps
  | Undefined => False
  end.
Proof. exact poly_roundtrip_cor. Qed.
Print Assumptions C52_polygons_roundtrip.

(* every curve is a piece of the boundary of the region, walked with the region
   on the left, and it keeps cells apart that meet only in a point *)
Theorem C52_bounds : forall st i ps s, reachable st -> ps_get_polygons false (st i) = Some (ps, s) ->
  forall p r, In p ps -> r = p_outer p \/ In r (p_holes p) -> bounds (ps_covers (st i)) (ring_points r).
Proof. exact get_bounds_cor. Qed.
Print Assumptions C52_bounds.

(* cutting the holes open changes neither the region nor its storage *)
Theorem C52_fracture_same_region : forall st i ps s qs t, reachable st ->
  ps_get_polygons false (st i) = Some (ps, s) -> ps_get_polygons true (st i) = Some (qs, t) ->
  s = t /\ forall x y, polys_winding ps x y = polys_winding qs x y.
Proof.
  intros st i ps s qs t H E1 E2. split.
  - unfold ps_get_polygons in *. destruct (ps_clean (st i)) as [s1|]; [|discriminate]. cbn [bind] in *.
    destruct (get_polygons false (ps_orient s1) (ps_data s1)); [|discriminate]. destruct (get_polygons true (ps_orient s1) (ps_data s1)); [|discriminate]. cbn [bind] in *. congruence.
  - destruct (get_polygons_cor st i false H) as [ps' [s' [E1' [[_ F1] _]]]]. destruct (get_polygons_cor st i true H) as [qs' [t' [E2' [[_ F2] _]]]].
    assert (ps' = ps) by congruence. assert (qs' = qs) by congruence. subst ps' qs'. intros x y. destruct (F1 x y) as [A1 A2]. destruct (F2 x y) as [B1 B2].
    destruct (Z_lt_dec 0 (ps_count (st i) x y)) as [C|C]; [rewrite (A1 C), (B1 C)|rewrite (A2 C), (B2 C)]; reflexivity.
Qed.
Print Assumptions C52_fracture_same_region.

(* two of the holes touch at a vertex and share their curve; the rectangle that
   touches at (10,10) is a polygon of its own *)
Example C52_demo_vertical : exists s, ps_get_polygons false (demo52_store Vertical 0%nat) = Some
  ([mk_poly90 [0; 0; 10; 10] [[5; 6; 2; 8]; [6; 4; 4; 2; 2; 4; 4; 5]; [8; 3; 7; 4]];
    mk_poly90 [10; 10; 12; 12] []; mk_poly90 [14; 3; 20; 4] []], s).
Proof. eexists. vm_compute. reflexivity. Qed.
Example C52_demo_horizontal : exists s, ps_get_polygons false (demo52_store Horizontal 0%nat) = Some
  ([mk_poly90 [14; 3; 20; 4] []; mk_poly90 [0; 0; 10; 10] [[8; 3; 7; 4]; [6; 4; 4; 2; 2; 4; 4; 5]; [5; 6; 2; 8]];
    mk_poly90 [10; 10; 12; 12] []], s).
Proof. eexists. vm_compute. reflexivity. Qed.
(* the curves of the demo: the corner (4,4) where two holes touch, and the corner (10,10) *)
Example C52_demo_corner : let P := fun x y => 0 < ps_count (demo52_store Vertical 0%nat) x y in
  P 3 4 /\ P 4 3 /\ ~ P 3 3 /\ ~ P 4 4 /\ P 9 9 /\ P 10 10 /\ ~ P 9 10 /\ ~ P 10 9.
Proof. vm_compute. intuition congruence. Qed.
(* the holes cut open *)
Example C52_demo_fracture : exists s, ps_get_polygons true (demo52_store Vertical 0%nat) = Some
  ([mk_poly90 [8; 3; 7; 4; 8; 10; 6; 4; 4; 2; 2; 4; 4; 5; 6; 10; 5; 6; 2; 8; 5; 10; 0; 0; 10; 10] [];
    mk_poly90 [10; 10; 12; 12] []; mk_poly90 [14; 3; 20; 4] []], s).
Proof. eexists. vm_compute. reflexivity. Qed.
Example C52_demo_fits : Forall (poly_fits 20) [mk_poly90 [0; 0; 10; 10] [[5; 6; 2; 8]; [6; 4; 4; 2; 2; 4; 4; 5]; [8; 3; 7; 4]]; mk_poly90 [10; 10; 12; 12] []].
Proof. repeat constructor; cbn; lia. Qed.
