(* property_merge: what is inserted, and what the results cover. *)
From Verif Require Import Base Units Outcome Scan90Spec Poly90Spec Poly90Model Poly90Proofs GeoSpec IvlModel RectModel SegModel PolySpec PolyModel PolyEdge PolyArea ScanBaseModel ScanBaseOab ScanBaseCross SnapModel SnapSpec SnapNode SnapChain SnapLoops SnapProofs SnapCor ArbSpec ArbOrder ArbSums ArbModel ArbMaps ArbLess ArbLine ArbColumn ArbScan ArbBool ArbResult ArbSnap ArbSetModel ArbSetProofs ArbSetCor ArbMergeSpec ArbMergeModel ArbConnModel.
From Coq Require Import Reals Lra Sorting.Sorted Sorting.Permutation.

(* ---------- direction ---------- *)
Definition norm (e : vprop) : vprop :=
  let '(s, (k, c)) := e in if pt_less (s_high s) (s_low s) then (mk_seg (s_high s) (s_low s), (k, c * -1)) else e.
Lemma norm_fst e : fst (norm e) = asc (fst e).
Proof. destruct e as [s [k c]]. unfold norm, asc, lo_end, hi_end. change lex_lt with pt_less. cbn [fst]. destruct (pt_less (s_high s) (s_low s)); [reflexivity|]. destruct s as [a b]. reflexivity. Qed.
Lemma norm_same (l : list vprop) : map asc (map fst l) = map fst (map norm l).
Proof. rewrite !map_map. apply map_ext. intros e. symmetry. apply norm_fst. Qed.
Definition apart (s : seg) : Prop := s_low s <> s_high s.
Lemma vs_norm (l : list vprop) e : (forall f, In f l -> apart (fst f)) -> vs_out (map norm l) e = vs_out l e.
Proof.
  intros A. unfold vs_out. destruct (snd e <? 0); [reflexivity|]. rewrite nth_error_map. destruct (nth_error l (Z.to_nat (snd e))) as [[s [k c]]|] eqn:N; [|reflexivity]. cbn [option_map norm].
  pose proof (less_o s (A _ (nth_error_In _ _ N))) as L. destruct (pt_less (s_high s) (s_low s)) eqn:Q; [|reflexivity]. cbn [s_low s_high]. rewrite Q. rewrite L. cbn [negb].
  assert (sb_vertical (mk_seg (s_high s) (s_low s)) = sb_vertical s) as -> by (unfold sb_vertical; cbn [s_low s_high]; apply Z.eqb_sym).
  do 3 f_equal. destruct (pt_less (s_low (fst e)) (s_high (fst e))); cbn [Bool.eqb]; destruct (negb (sb_vertical s) && sb_vertical (fst e)); lia.
Qed.
Lemma vs_norms (l : list vprop) es : (forall f, In f l -> apart (fst f)) -> vs_outs (map norm l) es = vs_outs l es.
Proof. intros A. induction es as [|e es IH]; [reflexivity|]. cbn [vs_outs]. rewrite vs_norm, IH by exact A. reflexivity. Qed.
Definition good_props (l : list vprop) : Prop := forall e, In e l -> ordered (fst e) /\ fits (fst e) /\ INT_MIN < px (s_low (fst e)).
Lemma good_apart (l : list vprop) : good_props (map norm l) -> forall f, In f l -> apart (fst f).
Proof.
  intros G f F E. pose proof (proj1 (G _ (in_map norm _ _ F))) as O. rewrite norm_fst in O. unfold ordered, asc, lo_end, hi_end in O. cbn [s_low s_high] in O. rewrite E in O.
  change lex_lt with pt_less in O. destruct (pt_less (s_high (fst f)) (s_high (fst f))); unfold pt_less in O; apply orb_true_iff in O; rewrite andb_true_iff, !Z.ltb_lt in O; lia.
Qed.
Lemma validate_norm (l : list vprop) : l <> [] -> good_props (map norm l) -> exists out, intersect_segments (map fst l) = Ok out /\ validate_props l = Ok (pcs (map norm l) out).
Proof.
  intros NE G. assert (SM : forall s, In s (map fst l) -> seg_small s).
  { intros s H. apply in_map_iff in H as [e [<- H]]. apply asc_small. rewrite <- norm_fst. apply fits_small. apply (G _ (in_map norm _ _ H)). }
  destruct (snap_main (map fst l) SM) as [out [hot [w [E _]]]]. exists out. split; [exact E|]. unfold validate_props.
  assert (E' : validate_scan (number_from 0 (map fst l)) = Ok out) by (destruct l as [|e l]; [congruence|exact E]). rewrite E'. cbn [obind].
  rewrite <- (vs_norms l out (good_apart l G)). apply (vs_ok (map norm l) G (map fst l) (norm_same l) out E).
Qed.

(* ---------- insertion ---------- *)
Section ring.
  Variables (ccw hole : bool) (k : Z).
  Definition ve (e : point * point) : list vprop := map (with_id k) (vseq_edge (sgn ccw hole) e).
  Lemma pt_eqb_true p q : pt_eqb p q = true -> p = q.
  Proof. apply pt_eqb_iff. Qed.
  Lemma vertex_ok a b r : pm_vertex ccw hole k a b = Ok r -> map norm r = ve (a, b).
  Proof.
    unfold pm_vertex, ve. destruct (pt_eqb a b) eqn:Q.
    - intros H. assert (r = []) by congruence. subst r. rewrite vseq_same; [reflexivity|]. apply pt_eqb_iff, Q.
    - assert (N : a <> b) by (intros E; apply pt_eqb_iff in E; congruence). rewrite (vseq_ne _ _ _ N). pose proof (less_o (mk_seg a b) N) as L. cbn [s_low s_high] in L.
      unfold insert_edge, insert_clean, with_id. cbn [fst snd s_low s_high map]. rewrite L. unfold chk.
      destruct (pt_less b a) eqn:P; cbn [negb]; (destruct ((INT_MIN <=? px b - px a) && (px b - px a <=? INT_MAX)); cbn [obind]; [|discriminate]); intros H;
        (assert (px b - px a =? 0 = (px a =? px b)) as ZQ by lia); (assert (Z.abs (px b - px a) =? 0 = (px a =? px b)) as ZA by lia); rewrite ZA in H.
      + match type of H with Ok ?t = _ => assert (r = t) by congruence end. subst r. cbn [map norm s_low s_high fst snd]. rewrite P. do 3 f_equal. unfold sgn. destruct ccw, hole, (px a =? px b); reflexivity.
      + match type of H with Ok ?t = _ => assert (r = t) by congruence end. subst r. cbn [map norm s_low s_high fst snd]. rewrite L. cbn [negb]. do 3 f_equal. unfold sgn. destruct ccw, hole, (px a =? px b); reflexivity.
  Qed.
  Lemma ve_same p : ve (p, p) = [].
  Proof. unfold ve. rewrite vseq_same by reflexivity. reflexivity. Qed.
  Lemma rest_ok first second l : forall prev r, pm_rest ccw hole k first second prev l = Ok r -> map norm r = flat_map ve (vseq_loop first prev l) ++ ve (first, second).
  Proof.
    induction l as [|q l IH]; intros prev r; cbn [pm_rest vseq_loop flat_map].
    - destruct (pt_eqb prev first) eqn:Q.
      + apply pt_eqb_true in Q. subst prev. cbn [obind]. destruct (pm_vertex ccw hole k first second) as [b| |] eqn:B; cbn [obind app]; try discriminate. intros H. assert (r = b) by congruence. subst r. rewrite ve_same. cbn [app]. apply (vertex_ok _ _ _ B).
      + destruct (pm_vertex ccw hole k prev first) as [a| |] eqn:A; cbn [obind]; try discriminate. destruct (pm_vertex ccw hole k first second) as [b| |] eqn:B; cbn [obind]; try discriminate. intros H. assert (r = a ++ b) by congruence. subst r.
        rewrite map_app, app_nil_r, (vertex_ok _ _ _ A), (vertex_ok _ _ _ B). reflexivity.
    - destruct (pt_eqb prev q) eqn:Q.
      + apply pt_eqb_true in Q. subst q. intros H. rewrite ve_same. cbn [app]. apply IH, H.
      + destruct (pm_vertex ccw hole k prev q) as [a| |] eqn:A; cbn [obind]; try discriminate. destruct (pm_rest ccw hole k first second q l) as [b| |] eqn:B; cbn [obind]; try discriminate. intros H. assert (r = a ++ b) by congruence. subst r.
        rewrite map_app, (vertex_ok _ _ _ A), (IH _ _ B), app_assoc. reflexivity.
  Qed.
  Lemma second_ok first l : forall r, pm_second ccw hole k first l = Ok r -> Permutation (map norm r) (flat_map ve (vseq_loop first first l)).
  Proof.
    induction l as [|q l IH]; intros r; cbn [pm_second vseq_loop flat_map].
    - intros H. assert (r = []) by congruence. subst r. rewrite ve_same. constructor.
    - destruct (pt_eqb first q) eqn:Q.
      + apply pt_eqb_true in Q. subst q. intros H. rewrite ve_same. cbn [app]. apply IH, H.
      + intros H. rewrite (rest_ok _ _ _ _ _ H). apply Permutation_app_comm.
  Qed.
  Lemma flat_with w es : flat_map (fun e => map (with_id k) (vseq_edge w e)) es = map (with_id k) (flat_map (vseq_edge w) es).
  Proof. induction es as [|e es IH]; [reflexivity|]. cbn [flat_map]. rewrite IH, map_app. reflexivity. Qed.
End ring.
Lemma ring_perm w hole k pts r : pm_ring w hole k pts = Ok r -> exists a, insert_ring w hole pts = Ok a /\ Permutation (map norm r) (map (with_id k) a).
Proof.
  unfold pm_ring, insert_ring. destruct (points_ccw_d w pts) as [ccw| |]; cbn [obind]; try discriminate. intros H. eexists. split; [reflexivity|].
  destruct pts as [|p l]; [assert (r = []) by congruence; subst r; constructor|]. destruct l as [|q l].
  - cbn [pm_second] in H. assert (r = []) by congruence. subst r. constructor.
  - apply second_ok in H. rewrite vseq_flat. unfold cyc_edges. rewrite <- vseq_cyc. rewrite <- flat_with. exact H.
Qed.
Lemma rings_perm w hole k hs : forall r, pm_rings w hole k hs = Ok r -> exists a, insert_rings w hole hs = Ok a /\ Permutation (map norm r) (map (with_id k) a).
Proof.
  induction hs as [|h hs IH]; intros r; cbn [pm_rings insert_rings].
  - intros H. assert (r = []) by congruence. subst r. exists []. split; [reflexivity|constructor].
  - destruct (pm_ring w hole k h) as [a| |] eqn:A; cbn [obind]; try discriminate. destruct (pm_rings w hole k hs) as [b| |] eqn:B; cbn [obind]; try discriminate. intros H. assert (r = a ++ b) by congruence. subst r.
    destruct (ring_perm _ _ _ _ _ A) as [a' [-> PA]]. destruct (IH _ eq_refl) as [b' [-> PB]]. cbn [obind]. eexists. split; [reflexivity|]. rewrite !map_app. apply Permutation_app; assumption.
Qed.
Lemma insert_perm w hole k g r : pm_insert w hole k g = Ok r -> exists a, insert_polygon w hole g = Ok a /\ Permutation (map norm r) (map (with_id k) a).
Proof.
  unfold pm_insert, insert_polygon. destruct (pm_ring w hole k (g_outer g)) as [a| |] eqn:A; cbn [obind]; try discriminate. destruct (pm_rings w (negb hole) k (g_holes g)) as [b| |] eqn:B; cbn [obind]; try discriminate. intros H. assert (r = a ++ b) by congruence. subst r.
  destruct (ring_perm _ _ _ _ _ A) as [a' [-> PA]]. destruct (rings_perm _ _ _ _ _ B) as [b' [-> PB]]. cbn [obind]. eexists. split; [reflexivity|]. rewrite !map_app. apply Permutation_app; assumption.
Qed.

(* ---------- edges of one property ---------- *)
Lemma with_tot (f : seg -> Z -> Z) (a : list pedge) k k' : (forall s, f s 0 = 0) -> tot (fun e => f (fst e) (wt k' e)) (map (with_id k) a) = if k =? k' then tot (fun e => f (fst e) (wt 0 e)) (as_set a) else 0.
Proof.
  intros F. rewrite tot_map. unfold as_set. rewrite tot_map. unfold with_id, wt. cbn [fst snd]. destruct (k =? k'); [reflexivity|]. apply tot_zero. intros e _. apply F.
Qed.
Lemma with_closed (a : list pedge) k : closed (as_set a) -> closed (map (with_id k) a).
Proof.
  intros C k' v. unfold along. rewrite (with_tot (fun s w => if eq_pt (s_low s) v then if vertical_edge s then - w else w else 0) a k k'), (with_tot (fun s w => if eq_pt (s_high s) v then if vertical_edge s then - w else w else 0) a k k').
  - destruct (k =? k'); [apply (C 0 v)|reflexivity].
  - intros s. destruct (eq_pt _ v), (vertical_edge s); reflexivity.
  - intros s. destruct (eq_pt _ v), (vertical_edge s); reflexivity.
Qed.
Lemma with_below (a : list pedge) k k' x y : depth_below (map (with_id k) a) k' x y = if k =? k' then depth_below (as_set a) 0 x y else 0.
Proof. apply (with_tot (fun s w => if spans_r s x && rltb (height s x) y then w else 0)). intros s. destruct (_ && _); reflexivity. Qed.
Lemma closed_perm a b : Permutation a b -> closed a -> closed b.
Proof. intros P C k v. rewrite <- !(tot_perm _ _ _ P). apply C. Qed.
Lemma closed_cat a b : closed a -> closed b -> closed (a ++ b).
Proof. intros A B k v. rewrite !tot_app, A, B. reflexivity. Qed.
Lemma below_perm a b k x y : Permutation a b -> depth_below a k x y = depth_below b k x y.
Proof. intros P. apply tot_perm, P. Qed.

(* ---------- the map of results ---------- *)
Fixpoint rm_get (K : list Z) (m : rmap) : list pedge :=
  match m with [] => [] | (K', r) :: m' => if zs_eqb K' K then r else rm_get K m' end.
Lemma zs_refl a : zs_eqb a a = true.
Proof. apply zs_eqb_iff. reflexivity. Qed.
Lemma zs_neq a b : a <> b -> zs_eqb a b = false.
Proof. intros N. apply not_true_iff_false. rewrite zs_eqb_iff. exact N. Qed.
Lemma put_get K K' e m : rm_get K (rm_put K' e m) = if zs_eqb K' K then rm_get K m ++ [e] else rm_get K m.
Proof.
  induction m as [|[J r] m IH]; cbn [rm_put rm_get].
  - destruct (zs_eqb K' K); reflexivity.
  - destruct (zs_eqb J K') eqn:Q.
    + apply zs_eqb_iff in Q. subst J. cbn [rm_get]. destruct (zs_eqb K' K); reflexivity.
    + cbn [rm_get]. rewrite IH. destruct (zs_eqb J K) eqn:P; [|reflexivity]. apply zs_eqb_iff in P. subst J. destruct (zs_eqb K' K) eqn:P; [|reflexivity]. apply zs_eqb_iff in P. subst K'. rewrite zs_refl in Q. discriminate.
Qed.
Lemma put_keys K K' e m : In K' (map fst (rm_put K e m)) <-> K' = K \/ In K' (map fst m).
Proof.
  induction m as [|[J r] m IH]; cbn [rm_put map fst In]; [intuition congruence|]. destruct (zs_eqb J K) eqn:Q; cbn [map fst In].
  - apply zs_eqb_iff in Q. subst J. intuition congruence.
  - rewrite IH. tauto.
Qed.
Definition ok_map (m : rmap) : Prop := NoDup (map fst m) /\ forall K r, In (K, r) m -> K <> [] /\ r <> [].
Lemma put_ok K e m : K <> [] -> ok_map m -> ok_map (rm_put K e m).
Proof.
  intros NE [N H]. split.
  - clear H. induction m as [|[J r] m IH]; cbn [rm_put]; [constructor; [intros []|constructor]|]. cbn [map fst] in N. inversion N as [|? ? N1 N2]; subst. destruct (zs_eqb J K) eqn:Q; cbn [map fst]; [exact N|].
    constructor; [|apply IH, N2]. intros I. apply put_keys in I as [->|I]; [rewrite zs_refl in Q; discriminate|]. exact (N1 I).
  - intros K' r I. clear N. revert I H. induction m as [|[J q] m IH]; cbn [rm_put]; intros I H.
    + destruct I as [I|[]]. assert (K' = K) by congruence. assert (r = [e]) by congruence. subst. split; [exact NE|discriminate].
    + destruct (zs_eqb J K) eqn:Q.
      * destruct I as [I|I]; [|apply H; right; exact I]. assert (J = K') by congruence. assert (E : q ++ [e] = r) by congruence. subst. split; [apply (H _ q); left; reflexivity|]. destruct q; discriminate.
      * destruct I as [I|I]; [apply H; left; exact I|]. apply IH; [exact I|]. intros K2 r2 I2. apply H. right. exact I2.
Qed.
Lemma get_in K r m : ok_map m -> In (K, r) m -> rm_get K m = r.
Proof.
  intros [N _]. induction m as [|[J q] m IH]; intros I; [destruct I|]. cbn [map fst] in N. inversion N as [|? ? N1 N2]; subst. cbn [rm_get]. destruct I as [I|I].
  - assert (J = K) by congruence. assert (q = r) by congruence. subst. rewrite zs_refl. reflexivity.
  - rewrite zs_neq; [apply IH; assumption|]. intros ->. apply N1, (in_map fst _ _ I).
Qed.
Lemma get_out K m : ~ In K (map fst m) -> rm_get K m = [].
Proof.
  induction m as [|[J q] m IH]; intros I; [reflexivity|]. cbn [rm_get map fst In] in *. rewrite zs_neq; [apply IH; tauto|]. intros E. apply I. left. exact E.
Qed.
(* what an edge adds to the result for K *)
Definition mo (K : list Z) (o : osides) : list pedge :=
  let '(he, (ls, rs)) := o in
  let c := if sb_vertical he then (if pt_less (s_high he) (s_low he) then 1 * -1 else 1) * -1 else if pt_less (s_high he) (s_low he) then 1 * -1 else 1 in
  (if zs_eqb ls K then [insert_clean (he, c)] else []) ++ (if zs_eqb rs K then [insert_clean (he, c * -1)] else []).
Lemma out_get K o m : K <> [] -> rm_get K (merge_out m o) = rm_get K m ++ mo K o.
Proof.
  intros NE. destruct o as [he [ls rs]]. unfold merge_out, mo. set (c := if sb_vertical he then _ else _).
  assert (Z0 : zs_eqb [] K = false) by (apply zs_neq; congruence).
  destruct ls as [|i ls], rs as [|j rs]; rewrite ?Z0, ?put_get, ?app_nil_r, ?app_nil_l; cbn [app]; try reflexivity.
  - destruct (zs_eqb (j :: rs) K); [reflexivity|]. rewrite app_nil_r. reflexivity.
  - destruct (zs_eqb (i :: ls) K); [reflexivity|]. rewrite app_nil_r. reflexivity.
  - destruct (zs_eqb (i :: ls) K), (zs_eqb (j :: rs) K); rewrite ?app_nil_r, <- ?app_assoc; reflexivity.
Qed.
Lemma out_map o m : ok_map m -> ok_map (merge_out m o).
Proof. intros H. destruct o as [he [ls rs]]. unfold merge_out. destruct ls as [|i ls], rs as [|j rs]; repeat (apply put_ok; [discriminate|]); exact H. Qed.
Lemma fold_get K os : K <> [] -> forall m, rm_get K (fold_left merge_out os m) = rm_get K m ++ flat_map (mo K) os.
Proof. intros NE. induction os as [|o os IH]; intros m; cbn [fold_left flat_map]; [symmetry; apply app_nil_r|]. rewrite IH, out_get, app_assoc by exact NE. reflexivity. Qed.
Lemma fold_map os : forall m, ok_map m -> ok_map (fold_left merge_out os m).
Proof. induction os as [|o os IH]; intros m H; [exact H|]. apply IH, out_map, H. Qed.
Lemma empty_map : ok_map [].
Proof. split; [constructor|intros K r []]. Qed.

(* ---------- the lists of properties ---------- *)
Lemma zset_in k l : forall j, In j (zset_insert k l) <-> j = k \/ In j l.
Proof.
  induction l as [|i l IH]; intros j; cbn [zset_insert In]; [intuition congruence|]. destruct (k <? i) eqn:Q; [cbn [In]; intuition congruence|]. destruct (i <? k) eqn:P; cbn [In]; [rewrite IH; tauto|].
  assert (i = k) by lia. subst. intuition congruence.
Qed.
Lemma zset_sorted k l : StronglySorted Z.lt l -> StronglySorted Z.lt (zset_insert k l).
Proof.
  induction l as [|i l IH]; intros H; cbn [zset_insert]; [constructor; [constructor|constructor]|]. apply StronglySorted_inv in H as [H F]. rewrite Forall_forall in F.
  destruct (k <? i) eqn:Q; [|destruct (i <? k) eqn:P].
  - constructor; [constructor; [exact H|apply Forall_forall, F]|]. constructor; [lia|]. apply Forall_forall. intros j J. specialize (F j J). lia.
  - constructor; [apply IH, H|]. apply Forall_forall. intros j J. apply zset_in in J as [->|J]; [lia|apply F, J].
  - constructor; [exact H|apply Forall_forall, F].
Qed.
Lemma cover_exists (d : Z -> Z) ids : (forall k, ~ In k ids -> d k <= 0) -> exists L, cover_list d L.
Proof.
  assert (X : forall js, exists L, StronglySorted Z.lt L /\ forall k, In k L <-> In k js /\ 0 < d k).
  { induction js as [|j js [L [S H]]]; [exists []; split; [constructor|]; cbn [In]; tauto|]. destruct (0 <? d j) eqn:Q.
    - exists (zset_insert j L). split; [apply zset_sorted, S|]. intros k. rewrite zset_in, H. cbn [In]. intuition (subst; try lia; auto).
    - exists L. split; [exact S|]. intros k. rewrite H. cbn [In]. intuition (subst; try lia; auto). }
  intros H. destruct (X ids) as [L [S I]]. exists L. split; [exact S|]. intros k. rewrite I. destruct (in_dec Z.eq_dec k ids) as [K|K]; [tauto|]. specialize (H k K). split; [tauto|lia].
Qed.
(* 1 if the properties with positive depth are those of K *)
Definition FK (ids K : list Z) (d : Z -> Z) : Z :=
  if forallb (fun k => 0 <? d k) K && forallb (fun k => (if in_dec Z.eq_dec k K then true else false) || negb (0 <? d k)) ids then 1 else 0.
Lemma FK_ext ids K d d' : (forall k, d k = d' k) -> FK ids K d = FK ids K d'.
Proof.
  intros H. unfold FK. assert (forallb (fun k => 0 <? d k) K = forallb (fun k => 0 <? d' k) K) as -> by (induction K as [|k K IH]; [reflexivity|]; cbn [forallb]; rewrite H, IH; reflexivity).
  assert (forallb (fun k => (if in_dec Z.eq_dec k K then true else false) || negb (0 <? d k)) ids = forallb (fun k => (if in_dec Z.eq_dec k K then true else false) || negb (0 <? d' k)) ids) as -> by (induction ids as [|k js IH]; [reflexivity|]; cbn [forallb]; rewrite H, IH; reflexivity).
  reflexivity.
Qed.
Lemma FK_0 ids K : K <> [] -> FK ids K (fun _ => 0) = 0.
Proof. intros N. destruct K as [|k K]; [congruence|]. reflexivity. Qed.
Lemma FK_01 ids K d : FK ids K d = 0 \/ FK ids K d = 1.
Proof. unfold FK. destruct (_ && _); auto. Qed.
Lemma FK_iff ids K d : StronglySorted Z.lt K -> (forall k, ~ In k ids -> d k <= 0) -> (FK ids K d = 1 <-> cover_list d K).
Proof.
  intros S O. unfold FK. set (b := forallb _ K && forallb _ ids). assert (B : b = true <-> cover_list d K).
  { unfold b. rewrite andb_true_iff, !forallb_forall. split.
    - intros [A C]. split; [exact S|]. intros k. split; [intros I; specialize (A k I); lia|]. intros P. destruct (in_dec Z.eq_dec k ids) as [I|I]; [|specialize (O k I); lia].
      specialize (C k I). destruct (in_dec Z.eq_dec k K) as [J|J]; [exact J|]. cbn [orb] in C. lia.
    - intros [_ C]. split; intros k I; [apply C in I; lia|]. destruct (in_dec Z.eq_dec k K) as [J|J]; [reflexivity|]. cbn [orb]. destruct (0 <? d k) eqn:Q; [|reflexivity]. exfalso. apply J, C. lia. }
  rewrite <- B. destruct b; split; intros H; try reflexivity; discriminate.
Qed.
Lemma FK_eq ids K d L : StronglySorted Z.lt K -> (forall k, ~ In k ids -> d k <= 0) -> cover_list d L -> FK ids K d = if zs_eqb L K then 1 else 0.
Proof.
  intros S O C. destruct (zs_eqb L K) eqn:Q.
  - apply zs_eqb_iff in Q. subst L. apply FK_iff; assumption.
  - destruct (FK_01 ids K d) as [E|E]; [exact E|]. apply FK_iff in E; [|exact S|exact O]. rewrite (cover_list_unique d L K C E), zs_refl in Q. discriminate.
Qed.

Section merged.
  Variable l : list vprop.
  Hypothesis nod : noded (map fst l).
  Hypothesis ord : forall e, In e l -> ordered (fst e).
  Hypothesis clo : closed l.
  Variable out : list osides.
  Hypothesis out_nd : NoDup (map fst out).
  Hypothesis out_in : forall e L R, In (e, (L, R)) out <-> In e (map fst l) /\ sides l e L R /\ L <> R.
  Definition ids : list Z := map (fun e => fst (snd e)) l.
  Lemma wt_out k e : In e l -> ~ In k ids -> wt k e = 0.
  Proof. intros He N. unfold wt. destruct (fst (snd e) =? k) eqn:Q; [|reflexivity]. exfalso. apply N. apply Z.eqb_eq in Q. rewrite <- Q. apply (in_map (fun e : vprop => fst (snd e)) _ _ He). Qed.
  Lemma tot_out k (c : vprop -> bool) : ~ In k ids -> tot (fun e => if c e then wt k e else 0) l = 0.
  Proof. intros N. apply tot_zero. intros e He. rewrite (wt_out k e He N). destruct (c e); reflexivity. Qed.
  Lemma lside_out e k : ~ In k ids -> lside l e k <= 0.
  Proof. intros N. unfold lside, cum, cumb, own, depth_below, depth_below_left. destruct (vertical_edge e); rewrite !(tot_out k _ N); lia. Qed.
  Lemma rside_out e k : ~ In k ids -> rside l e k <= 0.
  Proof. intros N. unfold rside, cumb, depth_below. destruct (vertical_edge e); rewrite !(tot_out k _ N); lia. Qed.
  Lemma out_sides e L R : In (e, (L, R)) out -> In e (map fst l) /\ cover_list (lside l e) L /\ cover_list (rside l e) R /\ L <> R.
  Proof. intros H. apply out_in in H as [A [B C]]. apply (sides_iff l nod ord clo) in B as [B1 B2]; [|exact A]. auto. Qed.
  Lemma out_every e L R : In e (map fst l) -> cover_list (lside l e) L -> cover_list (rside l e) R -> L <> R -> In (e, (L, R)) out.
  Proof. intros A B C D. apply out_in. split; [exact A|]. split; [|exact D]. apply (sides_iff l nod ord clo); auto. Qed.
  (* a function of the lists of properties does not change at an edge that is not reported *)
  Lemma silent (F : (Z -> Z) -> Z) e : (forall d d', (forall k, 0 < d k <-> 0 < d' k) -> F d = F d') -> In e (map fst l) -> ~ In e (map fst out) -> delta l F e = 0.
  Proof.
    intros E He N. unfold delta. destruct (cover_exists (lside l e) ids (lside_out e)) as [L CL]. destruct (cover_exists (rside l e) ids (rside_out e)) as [R CR].
    destruct (list_eq_dec Z.eq_dec L R) as [Q|Q].
    - subst R. rewrite (E (lside l e) (rside l e)); [lia|]. intros k. rewrite <- (proj2 CL k), <- (proj2 CR k). reflexivity.
    - exfalso. apply N. apply (in_map fst _ _ (out_every e L R He CL CR Q)).
  Qed.
  Lemma FK_pos js K d d' : (forall k, 0 < d k <-> 0 < d' k) -> FK js K d = FK js K d'.
  Proof.
    intros H. assert (Q : forall k, (0 <? d k) = (0 <? d' k)) by (intros k; apply ArbSums.bool_eq; rewrite !Z.ltb_lt; apply H). unfold FK.
    assert (forallb (fun k => 0 <? d k) K = forallb (fun k => 0 <? d' k) K) as -> by (clear - Q; induction K as [|k K IH]; [reflexivity|]; cbn [forallb]; rewrite Q, IH; reflexivity).
    assert (forallb (fun k => (if in_dec Z.eq_dec k K then true else false) || negb (0 <? d k)) js = forallb (fun k => (if in_dec Z.eq_dec k K then true else false) || negb (0 <? d' k)) js) as -> by (clear - Q; induction js as [|k js IH]; [reflexivity|]; cbn [forallb]; rewrite Q, IH; reflexivity).
    reflexivity.
  Qed.
  Variable K : list Z.
  Hypothesis NE : K <> [].
  Hypothesis SK : StronglySorted Z.lt K.
  Notation dl := (delta l (FK ids K)).
  Lemma mo_one o : In o out -> mo K o = if dl (fst o) =? 0 then [] else [(fst o, if vertical_edge (fst o) then - dl (fst o) else dl (fst o))].
  Proof.
    destruct o as [e [L R]]. intros H. destruct (out_sides e L R H) as [He [CL [CR N]]]. cbn [fst]. unfold delta. rewrite (FK_eq ids K _ L SK (lside_out e) CL), (FK_eq ids K _ R SK (rside_out e) CR).
    pose proof (ordered_pt e (ordE l ord e He)) as O. unfold mo, insert_clean. cbn [fst snd]. rewrite O. change (sb_vertical e) with (vertical_edge e).
    destruct (zs_eqb L K) eqn:QL, (zs_eqb R K) eqn:QR; [apply zs_eqb_iff in QL, QR; congruence| | |reflexivity]; destruct (vertical_edge e); reflexivity.
  Qed.
  Lemma mo_not e : In e (map fst l) -> ~ In e (map fst out) -> dl e = 0.
  Proof. apply silent. intros d d' H. apply FK_pos, H. Qed.
  Lemma mo_in e : In e (map fst out) -> In e (map fst l).
  Proof. intros H. apply in_map_iff in H as [[f [L R]] [H J]]. cbn [fst] in H. subst f. apply (proj1 (out_in e L R) J). Qed.
End merged.

Lemma FK_exact js K d : StronglySorted Z.lt K -> (forall k, ~ In k js -> d k <= 0) -> exact (FK js K d) d K.
Proof. intros S O. pose proof (FK_iff js K d S O) as I. destruct (FK_01 js K d) as [E|E]; [right|left]; (split; [exact E|]); rewrite <- I; lia. Qed.

Theorem merge_scan (l : list vprop) : noded (map fst l) -> good_props l -> closed l ->
  exists data out, vd_sort l = Ok data /\ scan data = Ok out /\ let m := fold_left merge_out out [] in
    NoDup (map fst m) /\
    (forall K r, In (K, r) m -> K <> [] /\ StronglySorted Z.lt K /\ r <> [] /\ NoDup (map fst r) /\ (forall e c, In (e, c) r -> In e (map fst l) /\ (c = 1 \/ c = -1)) /\ closed (as_set r)) /\
    (forall K x y, K <> [] ->
      exact (depth_below (as_set (rm_get K m)) 0 x y) (fun k => depth_below l k x y) K /\
      exact (depth_above (as_set (rm_get K m)) 0 x y) (fun k => depth_above l k x y) K /\
      exact (depth_below_left (as_set (rm_get K m)) 0 x y) (fun k => depth_below_left l k x y) K).
Proof.
  intros nod H clo. destruct (scan_main l nod H clo) as [data [out [S1 [S2 [S3 S4]]]]]. exists data, out. split; [exact S1|]. split; [exact S2|]. cbv zeta. set (m := fold_left merge_out out []).
  assert (ord : forall e, In e l -> ordered (fst e)) by (intros e K; apply H, K).
  pose proof (fold_map out [] empty_map) as OM. fold m in OM.
  assert (GET : forall K, K <> [] -> rm_get K m = flat_map (mo K) out) by (intros K NE; unfold m; rewrite (fold_get K out NE); reflexivity).
  split; [apply OM|].
  assert (SO : forall K, K <> [] -> rm_get K m <> [] -> StronglySorted Z.lt K).
  { intros K NE NN. rewrite (GET K NE) in NN. destruct (flat_map (mo K) out) as [|f r] eqn:Q; [congruence|]. assert (I : In f (flat_map (mo K) out)) by (rewrite Q; left; reflexivity). apply in_flat_map in I as [[e [L R]] [I1 I2]].
    destruct (out_sides l nod ord clo out S4 e L R I1) as [_ [[CL _] [[CR _] _]]]. unfold mo in I2. destruct (zs_eqb L K) eqn:QL; [apply zs_eqb_iff in QL; subst; assumption|]. destruct (zs_eqb R K) eqn:QR; [apply zs_eqb_iff in QR; subst; assumption|]. destruct I2. }
  split.
  - intros K r I. destruct (proj2 OM K r I) as [NE NR]. pose proof (get_in K r m OM I) as G. rewrite (GET K NE) in G. subst r. split; [exact NE|].
    assert (SK : StronglySorted Z.lt K) by (apply SO; [exact NE|rewrite (GET K NE); exact NR]). split; [exact SK|]. split; [exact NR|].
    pose proof (mo_one l nod ord clo out S4 K SK) as O1. pose proof (mo_not l nod ord clo out S4 K) as ON. pose proof (mo_in l out S4) as IO.
    split; [apply (result_nodup l (FK (ids l) K)); assumption|]. split; [apply (result_in l (FK (ids l) K)); try assumption; apply FK_01|].
    apply (result_closed l nod ord clo (FK (ids l) K)); try assumption; [intros d d'; apply FK_ext|apply FK_0, NE].
  - intros K x y NE. pose proof (mo_not l nod ord clo out S4 K) as ON. pose proof (mo_in l out S4) as IO.
    assert (DEC : StronglySorted Z.lt K \/ ~ StronglySorted Z.lt K).
    { assert (DF : forall i J, Forall (Z.lt i) J \/ ~ Forall (Z.lt i) J) by (intros i J; destruct (Forall_dec (Z.lt i) (Z_lt_dec i) J); auto).
      clear - DF. induction K as [|i K IH]; [left; constructor|]. destruct IH as [IH|IH]; [|right; intros S; apply StronglySorted_inv in S; tauto]. destruct (DF i K) as [D|D]; [left; constructor; assumption|right; intros S; apply StronglySorted_inv in S; tauto]. }
    destruct DEC as [SK|SK].
    + pose proof (mo_one l nod ord clo out S4 K SK) as O1. rewrite (GET K NE).
      assert (FE : forall d d', (forall k, d k = d' k) -> FK (ids l) K d = FK (ids l) K d') by (intros d d'; apply FK_ext). assert (F0 := FK_0 (ids l) K NE). assert (F1 := FK_01 (ids l) K).
      split; [|split].
      * rewrite (result_below l nod ord clo (FK (ids l) K)); try assumption. apply FK_exact; [exact SK|]. intros k N. unfold depth_below. rewrite (tot_out l k _ N). lia.
      * rewrite (result_above l nod ord clo (FK (ids l) K)); try assumption. apply FK_exact; [exact SK|]. intros k N. unfold depth_above. rewrite (tot_out l k _ N). lia.
      * rewrite (result_left l nod ord clo (FK (ids l) K)); try assumption. apply FK_exact; [exact SK|]. intros k N. unfold depth_below_left. rewrite (tot_out l k _ N). lia.
    + assert (E : rm_get K m = []) by (destruct (rm_get K m) eqn:Q; [reflexivity|]; exfalso; apply SK, SO; [exact NE|congruence]). rewrite E.
      split; [|split]; right; (split; [reflexivity|]); intros [S _]; exact (SK S).
Qed.
