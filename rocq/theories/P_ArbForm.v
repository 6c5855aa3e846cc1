(* C69, C70: the polygons that are formed from a set of general edges. *)
From Verif Require Import Base Units Outcome Poly90Spec Poly90Model Poly90Proofs GeoSpec RectModel PolySpec SnapSpec ArbSpec ArbOrder ArbSums ArbModel ArbSetModel ArbSetProofs P_Arb ArbFormSpec ArbFormModel ArbFormChains ArbFormGeo ArbFormMain ArbFormCor.
From Coq Require Import Reals Lra Sorting.Permutation.

(* ---------- C69: the rings go along the boundary ---------- *)
(* Edges that meet only in common ends, count 1 or -1 and have every place of the plane
   covered once or not at all are made into polygons whose rings use each edge once, the
   covered side on the left. *)
Theorem C69_form : forall r, NoDup (map fst r) -> noded (map fst r) -> good_edges r -> (forall e c, In (e, c) r -> c = 1 \/ c = -1) -> closed (as_set r) ->
  (forall x y, (depth_below (as_set r) 0 x y = 0 \/ depth_below (as_set r) 0 x y = 1) /\ (depth_below_left (as_set r) 0 x y = 0 \/ depth_below_left (as_set r) 0 x y = 1)) ->
  exists gs, form_polygons r = Ok gs /\ (forall g l, In g gs -> In l (rings g) -> closed_ring l) /\ Permutation (ring_steps gs) (map directed r).
Proof.
  intros r A B C D F G. destruct (form_ok r A B C D F G) as [gs [Q [H P]]]. exists gs. split; [exact Q|]. split; [|exact P]. intros g l I J. apply (H g I l J).
Qed.
Print Assumptions C69_form.
(* The same for a set that has to be cleaned first. *)
Theorem C69_get : forall a, good_edges a -> closed (as_set a) ->
  exists r gs, set_clean a = Ok r /\ NoDup (map fst r) /\ noded (map fst r) /\ get_polygons a = Ok gs /\
    (forall g l, In g gs -> In l (rings g) -> closed_ring l) /\ Permutation (ring_steps gs) (map directed r).
Proof.
  intros a G C. destruct (C64_clean a G C) as [r [Q [R1 [R2 [R3 [R4 [R5 _]]]]]]]. destruct (C69_form r R1 R2 R3 R4 R5 (clean_depth a r G C Q)) as [gs [F1 [F2 F3]]].
  exists r, gs. split; [exact Q|]. split; [exact R1|]. split; [exact R2|]. split; [unfold get_polygons; rewrite Q; exact F1|]. split; [exact F2|exact F3].
Qed.
Print Assumptions C69_get.
(* No ring is degenerate: it has three vertices at least, besides the first one that is
   repeated at the end. *)
Lemma step_ends e c : ordered e -> fst (directed (e, c)) <> snd (directed (e, c)) /\
  ((s_low e = fst (directed (e, c)) /\ s_high e = snd (directed (e, c))) \/ (s_low e = snd (directed (e, c)) /\ s_high e = fst (directed (e, c)))).
Proof.
  intros O. apply ordered_iff in O. unfold directed. cbn [fst snd]. destruct (xorb _ _); cbn [fst snd]; (split; [intros Q; rewrite Q in O; lia|auto]).
Qed.
Theorem C69_vertices : forall a gs, good_edges a -> closed (as_set a) -> get_polygons a = Ok gs -> forall g l, In g gs -> In l (rings g) -> (4 <= length l)%nat.
Proof.
  intros a gs G C H g l I J. destruct (C64_clean a G C) as [r [Q [R1 [_ [R3 _]]]]]. destruct (C69_get a G C) as [r' [gs' [Q' [_ [_ [H' [F2 F3]]]]]]]. assert (r' = r) as -> by congruence. assert (gs' = gs) as -> by congruence.
  assert (ST : forall s, In s (path_edges l) -> exists e, In e r /\ directed e = s).
  { intros s S. assert (K : In s (ring_steps gs)) by (apply in_flat_map; exists l; split; [apply in_flat_map; exists g; auto|exact S]). eapply Permutation_in in K; [|exact F3]. apply in_map_iff in K as [e [K1 K2]]. exists e. auto. }
  destruct (F2 g l I J) as [p [m ->]]. destruct m as [|q [|q' m]].
  - exfalso. destruct (ST (p, p) (or_introl eq_refl)) as [[e c] [E1 E2]]. destruct (step_ends e c (proj1 (R3 _ E1))) as [K _]. rewrite E2 in K. apply K. reflexivity.
  - exfalso. destruct (ST (p, q) (or_introl eq_refl)) as [[e c] [E1 E2]]. destruct (ST (q, p) (or_intror (or_introl eq_refl))) as [[f k] [F1 F4]].
    destruct (step_ends e c (proj1 (R3 _ E1))) as [K1 K2]. destruct (step_ends f k (proj1 (R3 _ F1))) as [_ K3]. rewrite E2 in K1, K2. rewrite F4 in K3. cbn [fst snd] in *.
    pose proof (proj1 (R3 _ E1)) as O1. pose proof (proj1 (R3 _ F1)) as O2. cbn [fst] in O1, O2. apply ordered_iff in O1, O2.
    assert (SE : e = f). { destruct e as [u v], f as [u' v']. cbn [s_low s_high] in *. destruct K2 as [[-> ->]|[-> ->]], K3 as [[-> ->]|[-> ->]]; try reflexivity; exfalso; lia. }
    subst f. assert (c = k). { clear - R1 E1 F1. induction r as [|[d n] r IH]; [destruct E1|]. cbn [map] in R1. inversion R1 as [|? ? N1 N2]; subst. destruct E1 as [E1|E1], F1 as [F1|F1]; [congruence| | |apply IH; assumption]; exfalso; apply N1; cbn [fst]; [apply (in_map fst) in F1; cbn [fst] in F1; congruence|apply (in_map fst) in E1; cbn [fst] in E1; congruence]. }
    subst k. rewrite E2 in F4. apply K1. congruence.
  - cbn [length]. rewrite app_length. cbn [length]. lia.
Qed.
Print Assumptions C69_vertices.
(* a square with a hole, and a triangle in the hole; two squares with a common corner *)
Definition form_g : list gpoly := [mk_gpoly [mk_pt 0 0; mk_pt 40 0; mk_pt 40 40; mk_pt 0 40] [[mk_pt 4 5; mk_pt 36 4; mk_pt 20 36]]; mk_gpoly [mk_pt 15 10; mk_pt 24 11; mk_pt 19 20] []].
Definition form_h : list gpoly := [mk_gpoly [mk_pt 0 0; mk_pt 10 0; mk_pt 10 10; mk_pt 0 10] []; mk_gpoly [mk_pt 10 10; mk_pt 20 10; mk_pt 20 20; mk_pt 10 20] []].
Definition set_of (gs : list gpoly) : list (seg * Z) := match insert_polygons 64 gs with Ok a => a | _ => [] end.
Lemma form_g_fits g : In g (form_g ++ form_h) -> poly_fits g.
Proof.
  intros G r R e E. unfold form_g, form_h in G. cbn [app In] in G. repeat destruct G as [<-|G]; try destruct G; unfold rings in R; cbn [g_outer g_holes In] in R; repeat destruct R as [<-|R]; try destruct R;
  vm_compute in E; repeat destruct E as [<-|E]; try destruct E; unfold edge_fits, fits, coord_fits; cbn [fst snd s_low s_high px py]; lia.
Qed.
Example C69_demo : good_edges (set_of form_g) /\ closed (as_set (set_of form_g)) /\ get_polygons (set_of form_g) = Ok
    [mk_gpoly [mk_pt 24 11; mk_pt 19 20; mk_pt 15 10; mk_pt 24 11] [];
     mk_gpoly [mk_pt 40 40; mk_pt 0 40; mk_pt 0 0; mk_pt 40 0; mk_pt 40 40] [[mk_pt 36 4; mk_pt 4 5; mk_pt 20 36; mk_pt 36 4]]].
Proof.
  assert (Q : insert_polygons 64 form_g = Ok (set_of form_g)) by (vm_compute; reflexivity). destruct (C63_insert 64 form_g _ Q) as [A [B _]]; [intros g G; apply form_g_fits, in_or_app; left; exact G|]. split; [exact A|]. split; [exact B|]. vm_compute. reflexivity.
Qed.
Example C69_demo_corner : get_polygons (set_of form_h) = Ok
    [mk_gpoly [mk_pt 10 10; mk_pt 0 10; mk_pt 0 0; mk_pt 10 0; mk_pt 10 10] []; mk_gpoly [mk_pt 20 20; mk_pt 10 20; mk_pt 10 10; mk_pt 20 10; mk_pt 20 20] []].
Proof. vm_compute. reflexivity. Qed.

(* ---------- C70: what the rings wind around ---------- *)
(* Around each place the rings wind once or not at all; once exactly where the polygons
   that have been inserted cover the plane, for places that no edge comes near to. *)
Theorem C70_covers : forall w gs a, insert_polygons w gs = Ok a -> (forall g, In g gs -> poly_fits g) ->
  exists hs, get_polygons a = Ok hs /\ (forall x y, rings_winding hs x y = 0 \/ rings_winding hs x y = 1) /\
    forall x y, away (polys_segs gs) x y -> rings_winding hs x y = if 0 <? polys_r gs x y then 1 else 0.
Proof.
  intros w gs a H F. destruct (C63_insert w gs a H F) as [GA [CA [EA DA]]]. destruct (C64_clean a GA CA) as [r [Q [_ [_ [R3 [R4 [_ [R6 _]]]]]]]]. destruct (C69_get a GA CA) as [r' [hs [Q' [_ [_ [H' [F2 F3]]]]]]]. assert (r' = r) as -> by congruence.
  assert (W : forall x y, rings_winding hs x y = depth_below (as_set r) 0 x y). { intros x y. rewrite windings by (intros g G l L; apply (F2 g l G L)). rewrite (zsum_perm _ _ _ F3). apply crossing_sum; assumption. }
  exists hs. split; [exact H'|]. split; [intros x y; rewrite W; apply (clean_depth a r GA CA Q x y)|]. intros x y AW. rewrite W, <- DA. apply R6.
  intros e x' y' IN ON. destruct (EA e IN) as [f [If S]]. apply (AW f x' y' If). exact (on_same _ _ _ _ S ON).
Qed.
Print Assumptions C70_covers.
(* Everywhere, if the edges are parallel to the axes. *)
Definition axis_steps (gs : list gpoly) : Prop := forall s, In s (polys_segs gs) -> px (s_low s) = px (s_high s) \/ py (s_low s) = py (s_high s).
Theorem C70_axis_parallel : forall w gs a, insert_polygons w gs = Ok a -> (forall g, In g gs -> poly_fits g) -> axis_steps gs ->
  exists hs, get_polygons a = Ok hs /\ forall x y, rings_winding hs x y = if 0 <? polys_r gs x y then 1 else 0.
Proof.
  intros w gs a H F AX. destruct (C63_insert w gs a H F) as [GA [CA [EA DA]]]. destruct (C64_clean a GA CA) as [r [Q [_ [_ [R3 [R4 [_ [_ R7]]]]]]]]. destruct (C69_get a GA CA) as [r' [hs [Q' [_ [_ [H' [F2 F3]]]]]]]. assert (r' = r) as -> by congruence.
  exists hs. split; [exact H'|]. intros x y. rewrite windings by (intros g G l L; apply (F2 g l G L)). rewrite (zsum_perm _ _ _ F3), crossing_sum by assumption. rewrite <- DA. apply R7.
  intros e IN. apply (in_map fst) in IN. destruct (EA _ IN) as [f [If S]]. specialize (AX f If). destruct S as [-> | ->]; cbn [s_low s_high] in AX; [exact AX|]. destruct AX; [left|right]; congruence.
Qed.
Print Assumptions C70_axis_parallel.
(* No vertex is further from the edges inserted than the snapping to the grid allows. *)
Theorem C70_near : forall w gs a hs, insert_polygons w gs = Ok a -> (forall g, In g gs -> poly_fits g) -> get_polygons a = Ok hs ->
  forall p q x y, In (p, q) (ring_steps hs) -> on_r (mk_seg p q) x y -> exists f x' y', In f (polys_segs gs) /\ on_r f x' y' /\ within x y x' y'.
Proof.
  intros w gs a hs H F H0 p q x y S ON. destruct (C63_insert w gs a H F) as [GA [CA [EA _]]]. destruct (exec_main OpOr a [] GA good_nil CA closed_nil) as [r [Q [_ [_ [_ [_ [_ [NE _]]]]]]]]. destruct (C69_get a GA CA) as [r' [hs' [Q' [_ [_ [H' [_ F3]]]]]]].
  assert (K : Ok r' = Ok r) by (etransitivity; [symmetry; exact Q'|exact Q]). assert (r' = r) as -> by congruence. assert (hs' = hs) as -> by congruence. eapply Permutation_in in S; [|exact F3]. apply in_map_iff in S as [[e c] [S1 S2]].
  assert (SS : same_seg (mk_seg p q) e). { unfold directed in S1. cbn [fst snd] in S1. unfold same_seg. destruct e as [u v]. cbn [s_low s_high] in *. destruct (xorb _ _); [left|right]; congruence. }
  destruct (NE e x y) as [f [x' [y' [N1 [N2 N3]]]]]; [apply (in_map fst _ _ S2)|exact (on_same _ _ _ _ SS ON)|]. cbn [map] in N1. rewrite app_nil_r in N1. destruct (EA f N1) as [f' [F1 F2]]. exists f', x', y'. split; [exact F1|]. split; [exact (on_same _ _ _ _ F2 N2)|exact N3].
Qed.
Print Assumptions C70_near.
Example C70_demo : insert_polygons 64 form_g = Ok (set_of form_g) /\ (forall g, In g form_g -> poly_fits g) /\ away (polys_segs form_g) 2 20 /\ insert_polygons 64 form_h = Ok (set_of form_h) /\ axis_steps form_h.
Proof.
  split; [vm_compute; reflexivity|]. split; [intros g G; apply form_g_fits, in_or_app; left; exact G|]. split; [let l := eval vm_compute in (polys_segs form_g) in change (polys_segs form_g) with l; away_ok|]. split; [vm_compute; reflexivity|].
  intros s H. vm_compute in H. repeat destruct H as [<-|H]; try destruct H; cbn [s_low s_high px py]; auto.
Qed.
