(* connectivity_extraction of polygon sets. *)
From Verif Require Import Base Units Outcome Scan90Spec Poly90Spec Poly90Model Poly90Proofs Poly90Vertices GeoSpec IvlModel RectModel SegModel PolySpec PolyModel PolyEdge PolyArea ScanBaseModel ScanBaseOab ScanBaseCross SnapModel SnapSpec SnapNode SnapChain SnapLoops SnapProofs SnapCor ArbSpec ArbOrder ArbSums ArbModel ArbMaps ArbLess ArbLine ArbColumn ArbScan ArbBool ArbResult ArbSnap ArbSetModel ArbSetProofs ArbSetCor ArbMergeSpec ArbMergeModel ArbConnModel ArbMergeProofs ArbMergeCor ArbConnScan ArbConnGeo ArbConnMain.
From Coq Require Import Reals Lra Sorting.Sorted Sorting.Permutation Classical.

Lemma pcs_axis (l : list vprop) out : good_props l -> intersect_segments (map fst l) = Ok out -> (forall e, In e l -> axis_seg (fst e)) -> forall t, In t (map fst (pcs l out)) -> axis_seg t.
Proof.
  intros G O A t H. apply in_map_iff in H as [p [<- H]]. destruct (pcs_in l G (map fst l) (asc_fst l G) out O p H) as [i [s [k [c [o [I0 [N [P ->]]]]]]]].
  assert (SO : axis_seg o).
  { pose proof (A _ (nth_error_In _ _ N)) as AX. cbn [fst] in AX. pose proof (p_axis l G (map fst l) (asc_fst l G) out O i _ I0 N o _ _ AX P (on_low o)) as L. pose proof (p_axis l G (map fst l) (asc_fst l G) out O i _ I0 N o _ _ AX P (on_high o)) as R. cbn [fst] in L, R.
    destruct L as [t1 [_ [X1 Y1]]]. destruct R as [t2 [_ [X2 Y2]]]. destruct AX as [AX|AX]; rewrite AX in *; [left|right]; apply eq_IZR; lra. }
  assert (C : same_seg o (fst (conv s k c o))) by (apply conv_same).
  destruct C as [-> | ->]; [exact SO|]. unfold axis_seg in *. cbn [s_low s_high]. destruct SO; auto.
Qed.
(* ---------- clean ---------- *)
Lemma clean_main a : good_edges a -> closed (as_set a) -> exists c, set_clean a = Ok c /\ good_edges c /\ closed (as_set c) /\
  (forall e x y, In e (map fst c) -> on_r e x y -> exists f x' y', In f (map fst a) /\ on_r f x' y' /\ within x y x' y') /\
  (forall x y, away (map fst a) x y -> (0 < depth_below (as_set c) 0 x y <-> 0 < depth_below (as_set a) 0 x y)) /\
  (axis_parallel a -> axis_parallel c /\ forall x y, 0 < depth_below (as_set c) 0 x y <-> 0 < depth_below (as_set a) 0 x y).
Proof.
  intros G C. assert (GN : good_edges []) by (intros e []). assert (CN : closed (as_set [])) by (intros k v; reflexivity).
  assert (CV : forall d, 0 < covers OpOr d 0 <-> 0 < d). { intros d. unfold covers, keeps. destruct (0 <? d) eqn:Q; cbn [orb Z.ltb Z.compare]; lia. }
  destruct (exec_main OpOr a [] G GN C CN) as [c [E [ND [NO [GC [ON [CC [NE [AW AX]]]]]]]]]. cbn [map] in NE, AW. rewrite app_nil_r in NE, AW. exists c. split; [exact E|]. split; [exact GC|]. split; [exact CC|]. split; [exact NE|]. split.
  - intros x y H. rewrite (AW x y H). apply CV.
  - intros AP. assert (AN : axis_parallel []) by (intros e []). split; [|intros x y; rewrite (proj1 (AX AP AN x y)); apply CV].
    destruct a as [|e0 a0] eqn:EA; [assert (c = []) by (cbn in E; congruence); subst c; intros e []|]. rewrite <- EA in *. assert (NB : both a [] <> []) by (rewrite EA; discriminate).
    destruct (exec_core OpOr a [] G GN C CN NB) as [out [r [O [E' [_ [IN _]]]]]]. assert (r = c) by congruence. subst r. intros [e k] He. cbn [fst].
    apply (pcs_axis (both a []) out (both_good a [] G GN) O); [|apply (IN e k He)]. intros f F. apply both_in in F as [p [[P|[]] [-> _]]]. apply AP, P.
Qed.
(* ---------- insertion ---------- *)
Fixpoint tag (id : Z) (cs : list (list pedge)) : list vprop := match cs with [] => [] | c :: cs' => map (with_id id) c ++ tag (id + 1) cs' end.
Definition nth_set (sets : list (list pedge)) (k : Z) : list pedge := if k <? 0 then [] else nth (Z.to_nat k) sets [].
Lemma nth_set_cons c cs k : nth_set (c :: cs) k = if k =? 0 then c else nth_set cs (k - 1).
Proof.
  unfold nth_set. destruct (k =? 0) eqn:K; [apply Z.eqb_eq in K; subst k; reflexivity|]. destruct (k <? 0) eqn:Q; [destruct (k - 1 <? 0) eqn:Q'; [reflexivity|lia]|]. destruct (k - 1 <? 0) eqn:Q'; [lia|]. replace (Z.to_nat k) with (S (Z.to_nat (k - 1))) by lia. reflexivity.
Qed.
Lemma nth_set_nil k : nth_set [] k = [].
Proof. unfold nth_set. destruct (k <? 0); [reflexivity|]. destruct (Z.to_nat k); reflexivity. Qed.
Lemma inserts_tag sets cs : Forall2 (fun a c => set_clean a = Ok c) sets cs -> forall id, ce_inserts id sets = Ok (tag id cs).
Proof. induction 1 as [|a c sets cs H F IH]; intros id; [reflexivity|]. cbn [ce_inserts tag]. rewrite H. cbn [obind]. rewrite IH. reflexivity. Qed.
Lemma tag_in cs : forall id e, In e (tag id cs) -> In (fst e) (map fst (nth_set cs (fst (snd e) - id))).
Proof.
  induction cs as [|c cs IH]; intros id e H; [destruct H|]. cbn [tag] in H. apply in_app_or in H as [H|H].
  - apply in_map_iff in H as [p [<- H]]. cbn [with_id fst snd]. rewrite nth_set_cons. replace (id - id =? 0) with true by lia. apply in_map, H.
  - pose proof (IH _ _ H) as K. rewrite nth_set_cons. replace (fst (snd e) - id - 1) with (fst (snd e) - (id + 1)) by lia. destruct (fst (snd e) - id =? 0) eqn:Q; [|exact K].
    exfalso. unfold nth_set in K. destruct (fst (snd e) - (id + 1) <? 0) eqn:Q'; [destruct K|]. lia.
Qed.
Lemma tag_low cs : forall id k x y, k < id -> depth_below (tag id cs) k x y = 0.
Proof.
  induction cs as [|c cs IH]; intros id k x y L; [reflexivity|]. unfold depth_below. cbn [tag]. rewrite tot_app. fold (depth_below (map (with_id id) c) k x y). fold (depth_below (tag (id + 1) cs) k x y). rewrite with_below, IH by lia. destruct (id =? k) eqn:Q; lia.
Qed.
Lemma tag_below cs : forall id k x y, depth_below (tag id cs) k x y = depth_below (as_set (nth_set cs (k - id))) 0 x y.
Proof.
  induction cs as [|c cs IH]; intros id k x y; [rewrite nth_set_nil; reflexivity|]. unfold depth_below at 1. cbn [tag]. rewrite tot_app. fold (depth_below (map (with_id id) c) k x y). fold (depth_below (tag (id + 1) cs) k x y). rewrite with_below, nth_set_cons.
  destruct (id =? k) eqn:Q.
  - replace (k - id =? 0) with true by lia. rewrite tag_low by lia. lia.
  - replace (k - id =? 0) with false by lia. rewrite IH. replace (k - id - 1) with (k - (id + 1)) by lia. reflexivity.
Qed.
Lemma tag_good cs : (forall c, In c cs -> good_edges c) -> forall id, good_props (tag id cs).
Proof.
  induction cs as [|c cs IH]; intros G id e H; [destruct H|]. cbn [tag] in H. apply in_app_or in H as [H|H]; [|apply (IH (fun d D => G d (or_intror D)) _ _ H)]. apply in_map_iff in H as [p [<- H]]. apply (G c (or_introl eq_refl) p H).
Qed.
Lemma tag_closed cs : (forall c, In c cs -> closed (as_set c)) -> forall id, closed (tag id cs).
Proof.
  induction cs as [|c cs IH]; intros G id; [intros k v; reflexivity|]. cbn [tag]. apply closed_cat; [apply with_closed, G; left; reflexivity|apply IH; intros d D; apply G; right; exact D].
Qed.
Lemma tag_nil cs : forall id, tag id cs = [] <-> forall c, In c cs -> c = [].
Proof.
  induction cs as [|c cs IH]; intros id; [split; [intros _ c []|reflexivity]|]. cbn [tag]. split.
  - intros H. apply app_eq_nil in H as [H1 H2]. intros d [<-|D]; [destruct c; [reflexivity|discriminate]|apply (proj1 (IH _) H2), D].
  - intros H. rewrite (H c (or_introl eq_refl)). cbn [map app]. apply IH. intros d D. apply H. right. exact D.
Qed.
Lemma nth_F2 {A B : Type} (P : A -> B -> Prop) da db l m : Forall2 P l m -> P da db -> forall n, P (nth n l da) (nth n m db).
Proof. induction 1 as [|a b l m H F IH]; intros D [|n]; cbn [nth]; auto. Qed.
(* ---------- the graph ---------- *)
Definition sets_ok (sets : list (list pedge)) : Prop := forall a, In a sets -> good_edges a /\ closed (as_set a).
Definition clean_of (a c : list pedge) : Prop := set_clean a = Ok c /\ good_edges c /\ closed (as_set c) /\
  (forall e x y, In e (map fst c) -> on_r e x y -> exists f x' y', In f (map fst a) /\ on_r f x' y' /\ within x y x' y') /\
  (forall x y, away (map fst a) x y -> (0 < depth_below (as_set c) 0 x y <-> 0 < depth_below (as_set a) 0 x y)) /\
  (axis_parallel a -> axis_parallel c /\ forall x y, 0 < depth_below (as_set c) 0 x y <-> 0 < depth_below (as_set a) 0 x y).
Lemma cleans sets : sets_ok sets -> exists cs, Forall2 clean_of sets cs.
Proof.
  induction sets as [|a sets IH]; intros H; [exists []; constructor|]. destruct IH as [cs F]; [intros b B; apply H; right; exact B|]. destruct (H a (or_introl eq_refl)) as [G C]. destruct (clean_main a G C) as [c K]. exists (c :: cs). constructor; assumption.
Qed.
Lemma F2_in {A B : Type} (P : A -> B -> Prop) l m : Forall2 P l m -> forall b, In b m -> exists a, In a l /\ P a b.
Proof. induction 1 as [|a b l m H F IH]; intros c K; [destruct K|]. destruct K as [<-|K]; [exists a; split; [left; reflexivity|exact H]|]. destruct (IH c K) as [a' [A1 A2]]. exists a'. split; [right; exact A1|exact A2]. Qed.
Lemma F2_in' {A B : Type} (P : A -> B -> Prop) l m : Forall2 P l m -> forall a, In a l -> exists b, In b m /\ P a b.
Proof. induction 1 as [|a b l m H F IH]; intros c K; [destruct K|]. destruct K as [<-|K]; [exists b; split; [left; reflexivity|exact H]|]. destruct (IH c K) as [a' [A1 A2]]. exists a'. split; [right; exact A1|exact A2]. Qed.
Lemma F2_sub {A B : Type} (P Q : A -> B -> Prop) l m : (forall a b, P a b -> Q a b) -> Forall2 P l m -> Forall2 Q l m.
Proof. intros H. induction 1; constructor; auto. Qed.
Lemma conn_empty sets : (forall a, In a sets -> set_clean a = Ok []) -> connectivity sets = Undefined.
Proof.
  intros H. assert (F : Forall2 (fun a c => set_clean a = Ok c) sets (map (fun _ => []) sets)). { induction sets as [|a sets IH]; cbn [map]; constructor; [apply H; left; reflexivity|apply IH; intros b B; apply H; right; exact B]. }
  unfold connectivity. rewrite (inserts_tag _ _ F). cbn [obind]. assert (tag 0 (map (fun _ : list pedge => []) sets) = []) as ->; [|vm_compute; reflexivity]. apply tag_nil. intros c C. apply in_map_iff in C as [x [<- _]]. reflexivity.
Qed.
Theorem conn_main sets a0 : sets_ok sets -> In a0 sets -> set_clean a0 <> Ok [] ->
  exists g (D : Z -> R -> R -> Z), connectivity sets = Ok g /\ (forall i j, In (i, j) g <-> i <> j /\ touching (D i) (D j)) /\
    (forall k x y, clear_by 2 (map fst (nth_set sets k)) x y -> (0 < D k x y <-> 0 < depth_below (as_set (nth_set sets k)) 0 x y)) /\
    ((forall a, In a sets -> axis_parallel a) -> forall k x y, 0 < D k x y <-> 0 < depth_below (as_set (nth_set sets k)) 0 x y).
Proof.
  intros OK I0 NC. destruct (cleans sets OK) as [cs F]. pose proof (F2_sub _ _ _ _ (fun a c (H : clean_of a c) => proj1 H) F) as FC.
  set (l := tag 0 cs). assert (NE : l <> []).
  { intros E. pose proof (proj1 (tag_nil cs 0) E) as Q. destruct (F2_in' _ _ _ FC a0 I0) as [c [C1 C2]]. rewrite (Q c C1) in C2. contradiction. }
  assert (G : good_props l) by (apply tag_good; intros c C; destruct (F2_in _ _ _ F c C) as [a [_ H]]; apply H).
  assert (CL : closed l) by (apply tag_closed; intros c C; destruct (F2_in _ _ _ F c C) as [a [_ H]]; apply H).
  destruct (validate_ok l NE G) as [out [OUT V]]. pose proof (asc_fst l G) as SAME.
  pose proof (pcs_noded l G _ SAME out OUT) as PN. pose proof (pcs_good l G _ SAME out OUT) as PG. pose proof (pcs_closed l G _ SAME out OUT CL) as PC. set (p := pcs l out) in *.
  destruct (scan_main p PN PG PC) as [data [os [S1 [S2 [S3 S4]]]]]. assert (PO : forall e, In e p -> ordered (fst e)) by (intros e H; apply (PG e H)).
  pose proof (scan_sorted p data os PN PG S1 S2) as SC.
  assert (LH : forall o, In o os -> px (s_low (fst o)) <= px (s_high (fst o))).
  { intros [e [L R]] H. apply S4 in H as [H _]. cbn [fst]. apply in_map_iff in H as [f [<- H]]. apply PO, ordered_iff in H. lia. }
  pose proof (graph_ok os SC LH) as GR.
  assert (CO : connectivity sets = Ok (let '(x, (m, g)) := fold_left ce_out os (INT_MAX, ([], [])) in snd (ce_process x [] m g))).
  { unfold connectivity. rewrite (inserts_tag _ _ FC). cbn [obind]. unfold ce_execute. fold l. rewrite V. cbn [obind]. fold p. rewrite S1. cbn [obind]. rewrite S2. cbn [obind]. destruct (fold_left ce_out os (INT_MAX, ([], []))) as [x [m g]]. reflexivity. }
  exists (let '(x, (m, g)) := fold_left ce_out os (INT_MAX, ([], [])) in snd (ce_process x [] m g)), (fun k => depth_below p k). split; [exact CO|].
  assert (CK : forall k, clean_of (nth_set sets k) (nth_set cs k)).
  { assert (CE : clean_of [] []). { split; [reflexivity|]. split; [intros e []|]. split; [intros k v; reflexivity|]. split; [intros e x y []|]. split; [reflexivity|]. intros _. split; [intros e []|reflexivity]. }
    intros k. unfold nth_set. destruct (k <? 0); [exact CE|]. apply nth_F2; [exact F|exact CE]. }
  assert (TB : forall k x y, depth_below l k x y = depth_below (as_set (nth_set cs k)) 0 x y) by (intros k x y; unfold l; rewrite tag_below, Z.sub_0_r; reflexivity).
  split; [|split].
  - intros i j. rewrite (GR i j). rewrite (touch_iff p PN PO PC os S3 S4 i j). reflexivity.
  - intros k x y CB. destruct (CK k) as [_ [_ [_ [NEAR [AW _]]]]].
    cbv beta. unfold p. rewrite (clear_depth_of l G _ SAME out OUT x y k).
    + rewrite TB. apply AW. intros e x' y' He ON [A B]. apply (CB e x' y' He ON). lra.
    + intros e He K x' y' ON [A B]. pose proof (tag_in cs 0 e He) as T. rewrite K, Z.sub_0_r in T. destruct (NEAR (fst e) x' y' T ON) as [f [x2 [y2 [F1 [F2 [W1 W2]]]]]]. apply (CB f x2 y2 F1 F2). apply Rabs_def2 in A, B. split; apply Rabs_def1; lra.
  - intros AX k x y. assert (AK : forall k, axis_parallel (nth_set sets k)).
    { intros k'. unfold nth_set. destruct (k' <? 0); [intros e []|]. destruct (le_lt_dec (length sets) (Z.to_nat k')) as [Q|Q]; [rewrite nth_overflow by exact Q; intros e []|]. apply AX, nth_In, Q. }
    assert (AL : forall e, In e l -> axis_seg (fst e)). { intros e He. pose proof (tag_in cs 0 e He) as T. apply in_map_iff in T as [q [Q1 Q2]]. rewrite <- Q1. destruct (CK (fst (snd e) - 0)) as [_ [_ [_ [_ [_ AP]]]]]. apply (proj1 (AP (AK _)) q Q2). }
    cbv beta. unfold p. rewrite (proj1 (axis_depth l G _ SAME out OUT AL x y k)).
    destruct (CK k) as [_ [_ [_ [_ [_ AP]]]]]. rewrite TB. apply (AP (AK k)).
Qed.
