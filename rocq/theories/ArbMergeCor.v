(* property_merge of polygons. *)
From Verif Require Import Base Units Outcome Scan90Spec Poly90Spec Poly90Model Poly90Proofs Poly90Vertices GeoSpec IvlModel RectModel SegModel PolySpec PolyModel PolyEdge PolyArea ScanBaseModel ScanBaseOab ScanBaseCross SnapModel SnapSpec SnapNode SnapChain SnapLoops SnapProofs SnapCor ArbSpec ArbOrder ArbSums ArbModel ArbMaps ArbLess ArbLine ArbColumn ArbScan ArbBool ArbResult ArbSnap ArbSetModel ArbSetProofs ArbSetCor ArbMergeSpec ArbMergeModel ArbConnModel ArbMergeProofs.
From Coq Require Import Reals Lra Sorting.Sorted Sorting.Permutation.

Lemma good_perm (a b : list vprop) : Permutation a b -> good_props b -> good_props a.
Proof. intros P G e H. apply G, (Permutation_in _ P H). Qed.
Lemma inserts_ok w cs : forall pmd, pm_inserts w cs = Ok pmd -> (forall c, In c cs -> poly_fits (fst c)) ->
  good_props (map norm pmd) /\ closed (map norm pmd) /\ (forall e, In e (map norm pmd) -> exists s, In s (calls_segs cs) /\ same_seg (fst e) s) /\
  forall k x y, depth_below (map norm pmd) k x y = calls_r cs k x y.
Proof.
  induction cs as [|[g [j hole]] cs IH]; intros pmd H F; cbn [pm_inserts] in H.
  - assert (pmd = []) by congruence. subst pmd. split; [intros e []|]. split; [intros k v; reflexivity|]. split; [intros e []|]. intros k x y. reflexivity.
  - destruct (pm_insert w hole j g) as [a| |] eqn:A; cbn [obind] in H; try discriminate. destruct (pm_inserts w cs) as [b| |] eqn:B; cbn [obind] in H; try discriminate. assert (pmd = a ++ b) by congruence. subst pmd.
    destruct (IH b eq_refl (fun c C => F c (or_intror C))) as [I1 [I2 [I3 I4]]]. destruct (insert_perm w hole j g a A) as [a' [E P]]. destruct (polygon_ok w hole g a' E (F _ (or_introl eq_refl))) as [[O1 [O2 O3]] D].
    rewrite map_app. split; [|split; [|split]].
    + intros e K. apply in_app_or in K as [K|K]; [|apply I1, K]. apply (Permutation_in _ P) in K. apply in_map_iff in K as [p [<- K]]. apply (O1 p K).
    + apply closed_cat; [|exact I2]. apply (closed_perm _ _ (Permutation_sym P)). apply with_closed, O2.
    + intros e K. apply in_app_or in K as [K|K].
      * apply (Permutation_in _ P) in K. apply in_map_iff in K as [p [<- K]]. destruct (O3 (fst p) (in_map fst _ _ K)) as [r [f [R [E1 Q]]]]. exists (mk_seg (fst f) (snd f)). split.
        -- unfold calls_segs, polys_segs. cbn [map fst flat_map]. rewrite flat_map_app. apply in_or_app. left. apply in_flat_map. exists r. split; [exact R|]. apply (in_map (fun e : point * point => mk_seg (fst e) (snd e))), E1.
        -- cbn [with_id fst]. unfold same_seg. destruct Q as [-> | ->]; cbn [s_low s_high]; auto.
      * destruct (I3 e K) as [s [S1 S2]]. exists s. split; [|exact S2]. unfold calls_segs, polys_segs in *. cbn [map fst flat_map]. rewrite flat_map_app. apply in_or_app. right. exact S1.
    + intros k x y. unfold depth_below at 1. rewrite tot_app. fold (depth_below (map norm a) k x y). fold (depth_below (map norm b) k x y). rewrite I4, (below_perm _ _ k x y P), with_below, D. unfold calls_r, zsum. cbn [fold_right fst snd]. destruct (j =? k); unfold sign; destruct hole; lia.
Qed.
Lemma same_axis s t : same_seg s t -> axis_seg t -> axis_seg s.
Proof. unfold same_seg, axis_seg. intros [-> | ->]; cbn [s_low s_high]; intros [H|H]; auto. Qed.
Lemma on_same s t x y : same_seg s t -> on_r s x y -> on_r t x y.
Proof.
  unfold same_seg. intros [-> | ->] H; [exact H|]. destruct H as [u [U [X Y]]]. exists (1 - u)%R. cbn [s_low s_high]. split; [lra|]. split; [rewrite X|rewrite Y]; ring.
Qed.
Lemma exact_ext v d d' K : (forall k, d k = d' k) -> exact v d K -> exact v d' K.
Proof. intros E [[A B]|[A B]]; [left|right]; (split; [exact A|]). - apply (cover_list_ext _ _ _ E), B. - intros C. apply B. apply (cover_list_ext d' d); [intros k; symmetry; apply E|exact C]. Qed.
Lemma rm_in K m : rm_get K m <> [] -> In (K, rm_get K m) m.
Proof.
  induction m as [|[J r] m IH]; cbn [rm_get]; [congruence|]. destruct (zs_eqb J K) eqn:Q; intros N; [apply zs_eqb_iff in Q; subst J; left; reflexivity|right; apply IH, N].
Qed.

Theorem merge_main w cs m : property_merge w cs = Ok m -> (forall c, In c cs -> poly_fits (fst c)) ->
  NoDup (map fst m) /\ noded (flat_map (fun p => map fst (snd p)) m) /\
  (forall K r, In (K, r) m -> K <> [] /\ StronglySorted Z.lt K /\ r <> [] /\ NoDup (map fst r) /\ noded (map fst r) /\ good_edges r /\
    (forall e c, In (e, c) r -> c = 1 \/ c = -1) /\ closed (as_set r) /\
    (forall e x y, In e (map fst r) -> on_r e x y -> exists f x' y', In f (calls_segs cs) /\ on_r f x' y' /\ within x y x' y')) /\
  (forall x y, exists D, 
    (forall K, K <> [] -> exact (depth_below (as_set (rm_get K m)) 0 x y) D K) /\
    (away (calls_segs cs) x y \/ (forall s, In s (calls_segs cs) -> axis_seg s) -> forall k, D k = calls_r cs k x y)) /\
  (forall x y, exists J, forall K, K <> [] -> depth_below (as_set (rm_get K m)) 0 x y = if zs_eqb J K then 1 else 0).
Proof.
  intros H F. unfold property_merge in H. destruct (pm_inserts w cs) as [pmd| |] eqn:E; cbn [obind] in H; try discriminate. destruct (inserts_ok w cs pmd E F) as [G [CL [SG D]]].
  destruct pmd as [|e0 pmd0] eqn:EP.
  { cbn [pm_merge_all] in H. assert (m = []) by congruence. subst m. split; [constructor|]. split; [intros s t x y []|]. split; [intros K r []|].
    assert (DZ : forall k x y, calls_r cs k x y = 0) by (intros k x y; rewrite <- D; reflexivity). split.
    - intros x y. exists (fun _ => 0). split.
      + intros K NE. right. split; [reflexivity|]. intros [_ C]. destruct K as [|k K]; [congruence|]. specialize (proj1 (C k) (or_introl eq_refl)). lia.
      + intros _ k. symmetry. apply DZ.
    - intros x y. exists []. intros K NE. rewrite zs_neq by congruence. reflexivity. }
  rewrite <- EP in *. set (l := map norm pmd) in *. assert (NE : pmd <> []) by (rewrite EP; discriminate). destruct (validate_norm pmd NE G) as [out [OUT V]].
  pose proof (pcs_noded l G (map fst pmd) (norm_same pmd) out OUT) as PN. pose proof (pcs_good l G (map fst pmd) (norm_same pmd) out OUT) as PG. pose proof (pcs_closed l G (map fst pmd) (norm_same pmd) out OUT CL) as PC.
  destruct (merge_scan (pcs l out) PN PG PC) as [data [os [S1 [S2 S3]]]]. cbv zeta in S3.
  assert (EM : m = fold_left merge_out os []).
  { unfold pm_merge_all in H. rewrite EP in H. rewrite <- EP in H. rewrite V in H. cbn [obind] in H. fold l in H. rewrite S1 in H. cbn [obind] in H. rewrite S2 in H. cbn [obind] in H. congruence. }
  rewrite <- EM in S3. destruct S3 as [M1 [M2 M3]].
  assert (RIN : forall K r e, In (K, r) m -> In e (map fst r) -> In e (map fst (pcs l out))) by (intros K r e I J; apply in_map_iff in J as [[e' c] [<- J]]; destruct (M2 K r I) as [_ [_ [_ [_ [X _]]]]]; apply (X _ _ J)).
  split; [exact M1|]. split.
  { apply (noded_in (map fst (pcs l out))); [|exact PN]. intros e I. apply in_flat_map in I as [[K r] [I J]]. apply (RIN K r e I J). }
  split.
  { intros K r I. destruct (M2 K r I) as [X1 [X2 [X3 [X4 [X5 X6]]]]]. repeat (split; [assumption|]). split; [apply (noded_in (map fst (pcs l out))); [intros e J; apply (RIN K r e I J)|exact PN]|]. split.
    { intros [e c] J. cbn [fst]. apply X5 in J as [J _]. apply in_map_iff in J as [t [<- J]]. apply (PG t J). }
    split; [intros e c J; apply (X5 e c J)|]. split; [exact X6|]. intros e x y J ON.
    destruct (pcs_near l G (map fst pmd) (norm_same pmd) out OUT e x y (RIN K r e I J) ON) as [f [x' [y' [F1 [F2 F3]]]]]. destruct (SG f F1) as [s [Q1 Q2]]. exists s, x', y'. split; [exact Q1|]. split; [apply (on_same _ _ _ _ Q2 F2)|exact F3]. }
  split.
  - intros x y. exists (fun k => depth_below (pcs l out) k x y). split; [intros K N; apply (M3 K x y N)|]. intros [A|A] k; rewrite <- D.
    + apply (clear_depth l G (map fst pmd) (norm_same pmd) out OUT). intros e x' y' I ON. destruct (SG e I) as [s [Q1 Q2]]. apply (A s x' y' Q1 (on_same _ _ _ _ Q2 ON)).
    + apply (axis_depth l G (map fst pmd) (norm_same pmd) out OUT). intros e I. destruct (SG e I) as [s [Q1 Q2]]. apply (same_axis _ _ Q2), A, Q1.
  - intros x y. destruct (cover_exists (fun k => depth_below (pcs l out) k x y) (ids (pcs l out))) as [J CJ].
    { intros k N. unfold depth_below. rewrite (tot_out _ k _ N). lia. }
    exists J. intros K N. destruct (M3 K x y N) as [[[A B]|[A B]] _]; rewrite A.
    + rewrite (cover_list_unique _ _ _ CJ B), zs_refl. reflexivity.
    + rewrite zs_neq; [reflexivity|]. intros Q. subst J. exact (B CJ).
Qed.

(* ---------- insertion is defined ---------- *)
Section defined.
  Variables (w B : Z).
  Hypothesis HB : 0 <= B < 2 ^ 30.
  Lemma vertex_def ccw hole k a b : pt_fits B a -> pt_fits B b -> exists r, pm_vertex ccw hole k a b = Ok r.
  Proof.
    intros A C. unfold pm_vertex. destruct (pt_eqb a b); [eexists; reflexivity|]. assert (chk (px b - px a) = Ok (px b - px a)) as ->. { unfold chk. unfold pt_fits in A, C. replace ((INT_MIN <=? px b - px a) && (px b - px a <=? INT_MAX)) with true; [reflexivity|]. unfold INT_MIN, INT_MAX. lia. }
    destruct (pt_less a b); cbn [obind]; eexists; reflexivity.
  Qed.
  Lemma rest_def ccw hole k first second l : pt_fits B first -> pt_fits B second -> Forall (pt_fits B) l -> forall prev, pt_fits B prev -> exists r, pm_rest ccw hole k first second prev l = Ok r.
  Proof.
    intros A C F. induction F as [|q l Q F IH]; intros prev P; cbn [pm_rest].
    - destruct (vertex_def ccw hole k first second A C) as [b EB]. destruct (pt_eqb prev first); [cbn [obind]|destruct (vertex_def ccw hole k prev first P A) as [a ->]; cbn [obind]]; rewrite EB; cbn [obind]; eexists; reflexivity.
    - destruct (pt_eqb prev q); [apply IH, P|]. destruct (vertex_def ccw hole k prev q P Q) as [a ->]. cbn [obind]. destruct (IH q Q) as [b ->]. cbn [obind]. eexists. reflexivity.
  Qed.
  Lemma second_def ccw hole k first l : pt_fits B first -> Forall (pt_fits B) l -> exists r, pm_second ccw hole k first l = Ok r.
  Proof. intros A F. induction F as [|q l Q F IH]; cbn [pm_second]; [eexists; reflexivity|]. destruct (pt_eqb first q); [exact IH|]. apply rest_def; assumption. Qed.
  Definition fine (r : list point) : Prop := Forall (pt_fits B) r /\ Z.of_nat (length r) * (8 * (B * B)) <= 2 ^ w.
  Lemma ring_def hole k r : fine r -> exists a, pm_ring w hole k r = Ok a.
  Proof.
    intros [F L]. unfold pm_ring, points_ccw_d. destruct (points_area_d_fits w B r (proj1 HB) F L) as [v ->]. cbn [obind]. destruct r as [|p r]; [eexists; reflexivity|]. inversion F as [|? ? F1 F2]; subst. apply second_def; assumption.
  Qed.
  Lemma rings_def hole k hs : (forall r, In r hs -> fine r) -> exists a, pm_rings w hole k hs = Ok a.
  Proof.
    induction hs as [|h hs IH]; intros F; cbn [pm_rings]; [eexists; reflexivity|]. destruct (ring_def hole k h (F h (or_introl eq_refl))) as [a ->]. cbn [obind]. destruct (IH (fun r R => F r (or_intror R))) as [b ->]. cbn [obind]. eexists. reflexivity.
  Qed.
  Lemma inserts_def cs : (forall r, In r (flat_map rings (map fst cs)) -> fine r) -> exists a, pm_inserts w cs = Ok a.
  Proof.
    induction cs as [|[g [k hole]] cs IH]; intros F; cbn [pm_inserts]; [eexists; reflexivity|]. cbn [map fst flat_map] in F. unfold pm_insert.
    destruct (ring_def hole k (g_outer g) (F _ (or_introl eq_refl))) as [a ->]. cbn [obind]. destruct (rings_def (negb hole) k (g_holes g)) as [b ->]; [intros r R; apply F; right; apply in_or_app; left; exact R|]. cbn [obind].
    destruct IH as [c ->]; [intros r R; apply F; right; apply in_or_app; right; exact R|]. cbn [obind]. eexists. reflexivity.
  Qed.
  Lemma fine_fits g : (forall r, In r (rings g) -> fine r) -> poly_fits g.
  Proof.
    intros H r R [p q] E. destruct (H r R) as [FR _]. rewrite Forall_forall in FR. apply PolyCycle.cyc_in in E as [P Q]. cbn [fst snd] in P, Q. apply FR in P, Q. unfold pt_fits in P, Q. unfold edge_fits, fits, coord_fits. cbn [fst snd s_low s_high]. lia.
  Qed.
End defined.
Lemma merge_some w cs pmd : pm_inserts w cs = Ok pmd -> (forall c, In c cs -> poly_fits (fst c)) -> exists m, property_merge w cs = Ok m.
Proof.
  intros E F. unfold property_merge. rewrite E. cbn [obind]. destruct (inserts_ok w cs pmd E F) as [G [CL [SG D]]]. destruct pmd as [|e0 pmd0] eqn:EP; [eexists; reflexivity|]. unfold pm_merge_all. rewrite <- EP in *. assert (NE : pmd <> []) by (rewrite EP; discriminate). destruct (validate_norm pmd NE G) as [out [OUT V]]. rewrite V. cbn [obind].
  destruct (merge_scan (pcs (map norm pmd) out)) as [data [os [S1 [S2 _]]]]; [apply (pcs_noded _ G _ (norm_same pmd) out OUT)|exact (pcs_good _ G _ (norm_same pmd) out OUT)|apply (pcs_closed _ G _ (norm_same pmd) out OUT CL)|]. rewrite S1. cbn [obind]. rewrite S2. cbn [obind]. eexists. reflexivity.
Qed.
