(* Inserting polygons, and the operations on sets of polygons. *)
From Verif Require Import Base Units Outcome Scan90Spec Poly90Spec Poly90Model Poly90Proofs GeoSpec IvlModel RectModel SegModel PolySpec PolyModel PolyEdge ScanBaseModel ScanBaseOab ScanBaseCross SnapModel SnapSpec SnapNode SnapChain SnapProofs SnapCor ArbSpec ArbOrder ArbSums ArbModel ArbMaps ArbLess ArbLine ArbColumn ArbScan ArbBool ArbResult ArbSnap ArbSetModel.
From Coq Require Import Reals Lra Sorting.Sorted Sorting.Permutation.


(* ---------- boolean_exec ---------- *)
Lemma validate_ok l : l <> [] -> (forall e, In e l -> ordered (fst e) /\ fits (fst e) /\ INT_MIN < px (s_low (fst e))) ->
  exists out, intersect_segments (map fst l) = Ok out /\ validate_props l = Ok (pcs l out).
Proof.
  intros NE G. assert (SM : forall s, In s (map fst l) -> seg_small s) by (intros s H; apply in_map_iff in H as [e [<- H]]; apply fits_small, G, H).
  destruct (snap_main (map fst l) SM) as [out [hot [w [E _]]]]. exists out. split; [exact E|]. unfold validate_props.
  assert (E' : validate_scan (number_from 0 (map fst l)) = Ok out) by (destruct l as [|e l]; [congruence|exact E]). rewrite E'. cbn [obind]. apply (vs_ok l G (map fst l) (asc_fst l G) out E).
Qed.
Definition both (a b : list pedge) : list vprop := map (with_id 0) a ++ map (with_id 1) b.
Lemma both_in a b e : In e (both a b) -> exists p, (In p a \/ In p b) /\ fst e = fst p /\ (fst (snd e) = 0 \/ fst (snd e) = 1).
Proof. intros H. apply in_app_or in H as [H|H]; apply in_map_iff in H as [p [<- H]]; exists p; cbn [with_id fst snd]; auto. Qed.
Lemma both_tot (f : seg -> Z -> Z) a b k : (forall s, f s 0 = 0) ->
  tot (fun e => f (fst e) (wt k e)) (both a b) = if k =? 0 then tot (fun e => f (fst e) (wt 0 e)) (as_set a) else if k =? 1 then tot (fun e => f (fst e) (wt 0 e)) (as_set b) else 0.
Proof.
  intros Z0. unfold both. rewrite tot_app, !tot_map. unfold as_set. rewrite !tot_map. unfold wt, with_id. cbn [fst snd].
  destruct (k =? 0) eqn:K0; [|destruct (k =? 1) eqn:K1].
  - apply Z.eqb_eq in K0. subst k. rewrite (tot_zero _ b); [rewrite Z.add_0_r; reflexivity|]. intros e _. cbn [Z.eqb]. apply Z0.
  - apply Z.eqb_eq in K1. subst k. rewrite (tot_zero _ a); [rewrite Z.add_0_l; reflexivity|]. intros e _. cbn [Z.eqb]. apply Z0.
  - rewrite !tot_zero; [reflexivity| |]; intros e _; [replace (1 =? k) with false by lia|replace (0 =? k) with false by lia]; apply Z0.
Qed.
Lemma along_wt k e : along k e = if vertical_edge (fst e) then - wt k e else wt k e.
Proof. reflexivity. Qed.
Lemma both_closed a b : closed (as_set a) -> closed (as_set b) -> closed (both a b).
Proof.
  intros A B k v. unfold along. rewrite (both_tot (fun s w => if eq_pt (s_low s) v then if vertical_edge s then - w else w else 0) a b k), (both_tot (fun s w => if eq_pt (s_high s) v then if vertical_edge s then - w else w else 0) a b k).
  - destruct (k =? 0); [apply (A 0 v)|]. destruct (k =? 1); [apply (B 0 v)|reflexivity].
  - intros s. destruct (eq_pt _ v), (vertical_edge s); reflexivity.
  - intros s. destruct (eq_pt _ v), (vertical_edge s); reflexivity.
Qed.
Lemma both_below a b x y k : depth_below (both a b) k x y = if k =? 0 then depth_below (as_set a) 0 x y else if k =? 1 then depth_below (as_set b) 0 x y else 0.
Proof. apply (both_tot (fun s w => if spans_r s x && rltb (height s x) y then w else 0)). intros s. destruct (_ && _); reflexivity. Qed.
Lemma both_above a b x y k : depth_above (both a b) k x y = if k =? 0 then depth_above (as_set a) 0 x y else if k =? 1 then depth_above (as_set b) 0 x y else 0.
Proof. apply (both_tot (fun s w => if spans_r s x && rleb (height s x) y then w else 0)). intros s. destruct (_ && _); reflexivity. Qed.
Lemma both_left a b x y k : depth_below_left (both a b) k x y = if k =? 0 then depth_below_left (as_set a) 0 x y else if k =? 1 then depth_below_left (as_set b) 0 x y else 0.
Proof. apply (both_tot (fun s w => if spans_l s x && rltb (height s x) y then w else 0)). intros s. destruct (_ && _); reflexivity. Qed.

Lemma covers_kept op d : covers op (d 0) (d 1) = kept op d.
Proof. reflexivity. Qed.
Lemma both_good a b : good_edges a -> good_edges b -> forall e, In e (both a b) -> ordered (fst e) /\ fits (fst e) /\ INT_MIN < px (s_low (fst e)).
Proof. intros GA GB e H. apply both_in in H as [p [P [-> _]]]. destruct P as [P|P]; [apply GA, P|apply GB, P]. Qed.
Lemma exec_core op a b : good_edges a -> good_edges b -> closed (as_set a) -> closed (as_set b) -> both a b <> [] ->
  exists out r, intersect_segments (map fst (both a b)) = Ok out /\ boolean_exec op a b = Ok r /\
    NoDup (map fst r) /\ (forall e c, In (e, c) r -> In e (map fst (pcs (both a b) out)) /\ (c = 1 \/ c = -1)) /\ closed (as_set r) /\
    forall x y, depth_below (as_set r) 0 x y = kept op (fun k => depth_below (pcs (both a b) out) k x y) /\
                depth_above (as_set r) 0 x y = kept op (fun k => depth_above (pcs (both a b) out) k x y) /\
                depth_below_left (as_set r) 0 x y = kept op (fun k => depth_below_left (pcs (both a b) out) k x y).
Proof.
  intros GA GB CA CB NE. set (l := both a b) in *. pose proof (both_good a b GA GB) as G. fold l in G.
  assert (CL : closed l) by (apply both_closed; assumption).
  assert (IDS : forall e, In e l -> fst (snd e) = 0 \/ fst (snd e) = 1) by (intros e H; apply both_in in H as [p [_ [_ I]]]; exact I).
  destruct (validate_ok l NE G) as [out [OUT V]].
  destruct (bool_main (pcs l out) op (pcs_noded l G (map fst l) (asc_fst l G) out OUT) (pcs_good l G (map fst l) (asc_fst l G) out OUT) (pcs_closed l G (map fst l) (asc_fst l G) out OUT CL)) as [data [os [S1 [S2 S3]]]].
  { intros e H. destruct (pcs_ids l G (map fst l) (asc_fst l G) out OUT e H) as [f [F1 F2]]. rewrite F2. apply IDS, F1. }
  cbv zeta in S3. set (r := flat_map (bool_out op) os) in *. destruct S3 as [R1 [R2 [R3 R4]]].
  exists out, r. split; [exact OUT|]. split; [|auto].
  unfold boolean_exec. fold (both a b). fold l. destruct l as [|e0 l0] eqn:EL; [congruence|]. rewrite V. cbn [obind]. rewrite S1. cbn [obind]. rewrite S2. reflexivity.
Qed.
Lemma exec_main op a b : good_edges a -> good_edges b -> closed (as_set a) -> closed (as_set b) ->
  exists r, boolean_exec op a b = Ok r /\
    NoDup (map fst r) /\ noded (map fst r) /\ good_edges r /\ (forall e c, In (e, c) r -> c = 1 \/ c = -1) /\ closed (as_set r) /\
    (forall e x y, In e (map fst r) -> on_r e x y -> exists f x' y', In f (map fst a ++ map fst b) /\ on_r f x' y' /\ within x y x' y') /\
    (forall x y, away (map fst a ++ map fst b) x y -> depth_below (as_set r) 0 x y = covers op (depth_below (as_set a) 0 x y) (depth_below (as_set b) 0 x y)) /\
    (axis_parallel a -> axis_parallel b -> forall x y,
      depth_below (as_set r) 0 x y = covers op (depth_below (as_set a) 0 x y) (depth_below (as_set b) 0 x y) /\
      depth_above (as_set r) 0 x y = covers op (depth_above (as_set a) 0 x y) (depth_above (as_set b) 0 x y) /\
      depth_below_left (as_set r) 0 x y = covers op (depth_below_left (as_set a) 0 x y) (depth_below_left (as_set b) 0 x y)).
Proof.
  intros GA GB CA CB. set (l := both a b).
  assert (G : forall e, In e l -> ordered (fst e) /\ fits (fst e) /\ INT_MIN < px (s_low (fst e))).
  { intros e H. apply both_in in H as [p [P [-> _]]]. destruct P as [P|P]; [apply GA, P|apply GB, P]. }
  assert (CL : closed l) by (apply both_closed; assumption).
  destruct l as [|e0 l0] eqn:EL.
  { exists []. unfold boolean_exec. fold (both a b). unfold l in EL. assert (both a b = []) as -> by exact EL. split; [reflexivity|]. assert (a = [] /\ b = []) as [-> ->].
    { unfold both in EL. apply app_eq_nil in EL as [E1 E2]. apply map_eq_nil in E1, E2. auto. }
    split; [constructor|]. split; [intros s t x y []|]. split; [intros e []|]. split; [intros e c []|]. split; [intros k v; reflexivity|]. split; [intros e x y []|].
    split; [intros x y _; destruct op; reflexivity|]. intros _ _ x y. destruct op; split; [|split| |split| |split| |split]; reflexivity. }
  rewrite <- EL in *. assert (NE : l <> []) by (rewrite EL; discriminate).
  destruct (exec_core op a b GA GB CA CB NE) as [out [r [OUT [EX [R1 [R2 [R3 R4]]]]]]]. fold l in OUT, R2, R4.
  assert (RIN : forall e, In e (map fst r) -> In e (map fst (pcs l out))) by (intros e H; apply in_map_iff in H as [[e' c] [<- H]]; apply (R2 _ _ H)).
  assert (LF : map fst l = map fst a ++ map fst b). { unfold l, both. rewrite map_app, !map_map. reflexivity. }
  exists r. split; [exact EX|].
  split; [exact R1|]. split; [apply (noded_in (map fst (pcs l out))); [exact RIN|apply (pcs_noded l G (map fst l) (asc_fst l G) out OUT)]|]. split.
  { intros [e c] H. cbn [fst]. apply R2 in H as [H _]. apply in_map_iff in H as [t [<- H]]. apply (pcs_good l G (map fst l) (asc_fst l G) out OUT t H). }
  split; [intros e c H; apply (R2 e c H)|]. split; [exact R3|]. split.
  { intros e x y H ON. destruct (pcs_near l G (map fst l) (asc_fst l G) out OUT e x y (RIN e H) ON) as [f [x' [y' [F1 [F2 F3]]]]]. exists (fst f), x', y'. split; [rewrite <- LF; apply in_map, F1|]. auto. }
  split.
  - intros x y AW. destruct (R4 x y) as [B _]. rewrite B. unfold kept. rewrite !(clear_depth l G (map fst l) (asc_fst l G) out OUT).
    + unfold l. rewrite !both_below. reflexivity.
    + intros e x' y' H ON. apply (AW (fst e) x' y'); [rewrite <- LF; apply in_map, H|exact ON].
    + intros e x' y' H ON. apply (AW (fst e) x' y'); [rewrite <- LF; apply in_map, H|exact ON].
  - intros AA AB x y. assert (AX : forall e, In e l -> px (s_low (fst e)) = px (s_high (fst e)) \/ py (s_low (fst e)) = py (s_high (fst e))).
    { intros e H. apply both_in in H as [p [P [-> _]]]. destruct P as [P|P]; [apply AA, P|apply AB, P]. }
    destruct (R4 x y) as [B1 [B2 B3]]. rewrite B1, B2, B3. unfold kept. pose proof (axis_depth l G (map fst l) (asc_fst l G) out OUT AX x y) as D.
    destruct (D 0) as [-> [-> ->]]. destruct (D 1) as [-> [-> ->]]. unfold l. rewrite !both_below, !both_above, !both_left. auto.
Qed.

(* ---------- insertion ---------- *)
Lemma insert_ordered e : ordered (fst e) -> insert_edge false e = e.
Proof. intros O. unfold insert_edge, insert_clean. rewrite (ordered_pt _ O). reflexivity. Qed.
Lemma insert_set_ordered a : good_edges a -> insert_set false a = a.
Proof.
  intros G. unfold insert_set. induction a as [|e a IH]; [reflexivity|]. cbn [map]. rewrite IH by (intros f F; apply G; right; exact F). rewrite insert_ordered; [reflexivity|]. apply G. left. reflexivity.
Qed.
Lemma vseq_cyc p l : forall q, vseq_loop p q l = combine (q :: l) (l ++ [p]).
Proof. induction l as [|a l IH]; intros q; [reflexivity|]. cbn [vseq_loop]. rewrite IH. reflexivity. Qed.
Lemma cyc_one p (f : point * point -> Z) : f (p, p) = 0 -> zsum f (cyc_edges [p]) = 0.
Proof. intros H. unfold zsum. cbn [cyc_edges combine app fold_right]. lia. Qed.
Lemma zsum_tot {A : Type} (f : A -> Z) l : zsum f l = tot f l.
Proof. induction l as [|a l IH]; [reflexivity|]. unfold zsum in *. cbn [fold_right tot]. rewrite IH. reflexivity. Qed.

Section edge.
  Variables (w : Z) (p q : point).
  Lemma vseq_same : p = q -> vseq_edge w (p, q) = [].
  Proof. intros ->. unfold vseq_edge. assert (pt_eqb q q = true) as -> by (apply pt_eqb_iff; reflexivity). reflexivity. Qed.
  Lemma vseq_ne : p <> q -> vseq_edge w (p, q) = [insert_edge false (mk_seg p q, (if px p =? px q then -1 else 1) * w)].
  Proof. intros N. unfold vseq_edge. destruct (pt_eqb p q) eqn:Q; [apply pt_eqb_iff in Q; contradiction|reflexivity]. Qed.
  Lemma vseq_in e : In e (vseq_edge w (p, q)) -> ordered (fst e) /\ (fst e = mk_seg p q \/ fst e = mk_seg q p).
  Proof.
    destruct (pt_dec p q) as [E|N]; [rewrite (vseq_same E); intros []|]. rewrite (vseq_ne N). intros [<-|[]]. unfold insert_edge, insert_clean. cbn [fst snd s_low s_high].
    pose proof (less_o (mk_seg p q) N) as L. cbn [s_low s_high] in L. destruct (pt_less q p) eqn:Q; cbn [fst]; (split; [|auto]); unfold ordered; change lex_lt with pt_less; cbn [s_low s_high]; [exact Q|rewrite L; reflexivity].
  Qed.
  (* the edge as a directed curve *)
  Lemma vseq_along v : tot (fun e => (if eq_pt (s_low (fst e)) v then along 0 e else 0) - (if eq_pt (s_high (fst e)) v then along 0 e else 0)) (as_set (vseq_edge w (p, q))) = (b01 (eq_pt p v) - b01 (eq_pt q v)) * w.
  Proof.
    destruct (pt_dec p q) as [E|N]; [rewrite (vseq_same E); cbn [as_set map tot]; subst; lia|]. rewrite (vseq_ne N). unfold insert_edge, insert_clean, as_set, along, wt, vertical_edge, b01. cbn [map tot fst snd s_low s_high].
    destruct (pt_less q p); cbn [fst snd s_low s_high Z.eqb]; [rewrite (Z.eqb_sym (px q))|]; destruct (px p =? px q), (eq_pt p v), (eq_pt q v); lia.
  Qed.
  Lemma vseq_below x y : tot (fun e => if spans_r (fst e) x && rltb (height (fst e) x) y then wt 0 e else 0) (as_set (vseq_edge w (p, q))) = crossing_r x y (p, q) * w.
  Proof.
    destruct (Z.eq_dec (px p) (px q)) as [V|NV].
    - rewrite tot_zero.
      + unfold crossing_r. assert (Q : rleb (IZR (px p)) x && rltb x (IZR (px q)) = false) by (apply not_true_iff_false; rewrite andb_true_iff, rleb_iff, rltb_iff, V; lra).
        assert (Q' : rleb (IZR (px q)) x && rltb x (IZR (px p)) = false) by (apply not_true_iff_false; rewrite andb_true_iff, rleb_iff, rltb_iff, V; lra). rewrite Q, Q'. reflexivity.
      + intros e H. unfold as_set in H. apply in_map_iff in H as [f [<- H]]. cbn [fst]. apply vseq_in in H as [_ H]. assert (spans_r (fst f) x = false) as ->; [|reflexivity].
        apply not_true_iff_false. rewrite spans_r_iff. destruct H as [-> | ->]; cbn [s_low s_high]; rewrite V; lra.
    - assert (N : p <> q) by congruence. rewrite (vseq_ne N). unfold insert_edge, insert_clean, as_set, wt. cbn [map tot fst snd s_low s_high]. assert (px p =? px q = false) as -> by lia.
      destruct (pt_less q p) eqn:Q; cbn [fst snd s_low s_high Z.eqb]; unfold spans_r, crossing_r; cbn [s_low s_high].
      + assert (L : px q < px p) by (unfold pt_less in Q; apply orb_true_iff in Q; rewrite andb_true_iff, Z.ltb_lt, Z.eqb_eq in Q; lia). apply IZR_lt in L.
        assert (rleb (IZR (px p)) x && rltb x (IZR (px q)) = false) as -> by (apply not_true_iff_false; rewrite andb_true_iff, rleb_iff, rltb_iff; lra). cbn [andb].
        destruct (rleb (IZR (px q)) x && rltb x (IZR (px p)) && rltb (height (mk_seg q p) x) y); lia.
      + assert (L : px p < px q) by (unfold pt_less in Q; apply orb_false_iff in Q as [Q _]; apply Z.ltb_ge in Q; lia). apply IZR_lt in L.
        assert (rleb (IZR (px q)) x && rltb x (IZR (px p)) = false) as -> by (apply not_true_iff_false; rewrite andb_true_iff, rleb_iff, rltb_iff; lra). cbn [andb].
        destruct (rleb (IZR (px p)) x && rltb x (IZR (px q)) && rltb (height (mk_seg p q) x) y); lia.
  Qed.
End edge.

Lemma as_app a b : as_set (a ++ b) = as_set a ++ as_set b.
Proof. apply map_app. Qed.
Lemma as_flat w es (f : medge -> Z) : tot f (as_set (flat_map (vseq_edge w) es)) = tot (fun e => tot f (as_set (vseq_edge w e))) es.
Proof. induction es as [|e es IH]; [reflexivity|]. cbn [flat_map tot]. rewrite as_app, tot_app, IH. reflexivity. Qed.
Definition sgn (ccw hole : bool) : Z := if hole then - (if ccw then 1 else -1) else if ccw then 1 else -1.
Lemma vseq_flat ccw hole p q l : insert_vseq ccw hole (p :: q :: l) = flat_map (vseq_edge (sgn ccw hole)) (cyc_edges (p :: q :: l)).
Proof. unfold insert_vseq, cyc_edges. rewrite vseq_cyc. reflexivity. Qed.
Lemma vseq_tot ccw hole pts (f : medge -> Z) (g : point * point -> Z) : (forall e, In e (cyc_edges pts) -> tot f (as_set (vseq_edge (sgn ccw hole) e)) = g e * sgn ccw hole) -> (forall p, g (p, p) = 0) ->
  tot f (as_set (insert_vseq ccw hole pts)) = zsum g (cyc_edges pts) * sgn ccw hole.
Proof.
  intros H G0. destruct pts as [|p [|q l]]; [reflexivity|rewrite cyc_one by apply G0; reflexivity|]. rewrite vseq_flat, as_flat, zsum_tot, <- tot_scale. apply tot_ext. exact H.
Qed.
Lemma cyc_tele (f : point -> Z) l : zsum (fun e : point * point => f (fst e) - f (snd e)) (cyc_edges l) = 0.
Proof.
  destruct l as [|p l]; [reflexivity|]. unfold cyc_edges. rewrite <- vseq_cyc, zsum_tot.
  assert (H : forall l q, tot (fun e : point * point => f (fst e) - f (snd e)) (vseq_loop p q l) = f q - f p).
  { clear l. induction l as [|a l IH]; intros q; [cbn [vseq_loop tot fst snd]; lia|]. cbn [vseq_loop tot fst snd]. rewrite IH. lia. }
  rewrite H. lia.
Qed.
Lemma as_other r k (f : medge -> Z) : k <> 0 -> (forall e, wt k e = 0 -> f e = 0) -> tot f (as_set r) = 0.
Proof. intros K F. apply tot_zero. intros e H. unfold as_set in H. apply in_map_iff in H as [p [<- _]]. apply F. unfold wt. cbn [fst snd]. destruct (0 =? k) eqn:Q; [lia|reflexivity]. Qed.
Lemma vseq_closed ccw hole pts : closed (as_set (insert_vseq ccw hole pts)).
Proof.
  intros k v. destruct (Z.eq_dec k 0) as [->|K].
  - apply Z.sub_move_0_r. rewrite <- tot_sub. rewrite (vseq_tot ccw hole pts _ (fun e => b01 (eq_pt (fst e) v) - b01 (eq_pt (snd e) v))).
    + rewrite (cyc_tele (fun p => b01 (eq_pt p v))). lia.
    + intros [p q] _. apply vseq_along.
    + intros p. cbn [fst snd]. lia.
  - rewrite !(as_other _ k); auto; intros e W; unfold along; rewrite W; destruct (vertical_edge (fst e)), (eq_pt _ v); reflexivity.
Qed.
Lemma vseq_depth ccw hole pts x y : depth_below (as_set (insert_vseq ccw hole pts)) 0 x y = winding_r pts x y * sgn ccw hole.
Proof.
  apply (vseq_tot ccw hole pts _ (crossing_r x y)); [intros [p q] _; apply vseq_below|]. intros p. unfold crossing_r.
  assert (rleb (IZR (px p)) x && rltb x (IZR (px p)) = false) as -> by (apply not_true_iff_false; rewrite andb_true_iff, rleb_iff, rltb_iff; lra). reflexivity.
Qed.
Lemma fits_sym p q : fits (mk_seg p q) -> fits (mk_seg q p).
Proof. unfold fits. cbn [s_low s_high]. intros [A [B [C [D [E F]]]]]. repeat (split; try assumption); lia. Qed.
Lemma vseq_good ccw hole pts : ring_fits pts -> good_edges (insert_vseq ccw hole pts).
Proof.
  intros RF e H. destruct pts as [|p [|q l]]; [destruct H|destruct H|]. rewrite vseq_flat in H. apply in_flat_map in H as [[a b] [H1 H2]]. apply vseq_in in H2 as [O H2]. split; [exact O|].
  destruct (RF (a, b) H1) as [F1 [F2 F3]]. cbn [fst snd] in *. destruct H2 as [-> | ->]; cbn [s_low]; split; auto. apply fits_sym, F1.
Qed.
(* the points of the edges that are inserted are points of the curve *)
Lemma vseq_on ccw hole pts s : In s (map fst (insert_vseq ccw hole pts)) -> exists e, In e (cyc_edges pts) /\ (s = mk_seg (fst e) (snd e) \/ s = mk_seg (snd e) (fst e)).
Proof.
  intros H. apply in_map_iff in H as [f [<- H]]. destruct pts as [|p [|q l]]; [destruct H|destruct H|]. rewrite vseq_flat in H. apply in_flat_map in H as [[a b] [H1 H2]]. apply vseq_in in H2 as [O H2]. exists (a, b). auto.
Qed.
