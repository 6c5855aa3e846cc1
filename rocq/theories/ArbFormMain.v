(* The events of the set, and what is formed from them. *)
From Verif Require Import Base Units Outcome Scan90Spec Poly90Spec Poly90Model Poly90Proofs GeoSpec IvlModel RectModel SegModel PolySpec PolyModel PolyEdge ScanBaseModel ScanBaseOab SnapModel SnapSpec SnapProofs SnapLoops ArbSpec ArbOrder ArbSums ArbModel ArbMaps ArbLess ArbLine ArbColumn ArbBool ArbSetModel ArbSetProofs ArbSetCor ArbFormSpec ArbFormModel ArbFormChains ArbFormPoint ArbFormGeo ArbFormLine ArbFormVertex ArbFormColumn ArbFormScan.
From Coq Require Import Reals Lra Sorting.Sorted Sorting.Permutation.

(* ---------- neighbours with the same key ---------- *)
Definition key_le {V : Type} (a b : Z * V) : Prop := fst a <= fst b.
Lemma group_keys {V : Type} (l : list (Z * V)) k : In k (map fst (group l)) <-> In k (map fst l).
Proof.
  induction l as [|[a v] l IH]; [reflexivity|]. cbn [group map fst In]. rewrite <- IH. destruct (group l) as [|[a' vs] g]; [cbn [map fst In]; tauto|]. destruct (Z.eqb_spec a a') as [<-|N]; cbn [map fst In]; tauto.
Qed.
Lemma group_ok {V : Type} (l : list (Z * V)) : StronglySorted key_le l -> StronglySorted Z.lt (map fst (group l)) /\ (forall k vs, In (k, vs) (group l) -> vs = map snd (filter (fun e => fst e =? k) l)).
Proof.
  induction l as [|[a v] l IH]; intros S; [split; [constructor|intros k vs []]|]. apply StronglySorted_inv in S as [S F]. rewrite Forall_forall in F. destruct (IH S) as [I1 I2]. clear IH.
  assert (K : forall k, In k (map fst (group l)) -> a <= k). { intros k H. apply (proj1 (group_keys l k)) in H. apply in_map_iff in H as [e [<- H]]. apply (F e H). }
  assert (FN : forall k, ~ In k (map fst (group l)) -> filter (fun e => fst e =? k) l = []).
  { intros k H. apply filter_none. intros e He. destruct (Z.eqb_spec (fst e) k) as [<-|Q]; [|reflexivity]. exfalso. apply H. apply (proj2 (group_keys l (fst e))), in_map, He. }
  cbn [group]. destruct (group l) as [|[a' vs] g].
  - split; [constructor; constructor|]. intros k ws [Q|[]]. assert (a = k /\ [v] = ws) as [<- <-] by (split; congruence). cbn [filter fst]. rewrite Z.eqb_refl, FN by (intros []). reflexivity.
  - cbn [map fst] in I1, K, FN. apply StronglySorted_inv in I1 as [I1 G]. rewrite Forall_forall in G. destruct (Z.eqb_spec a a') as [<-|N].
    + split; [cbn [map fst]; constructor; [exact I1|rewrite Forall_forall; exact G]|]. intros k ws [Q|Q].
      * assert (a = k /\ v :: vs = ws) as [<- <-] by (split; congruence). cbn [filter fst]. rewrite Z.eqb_refl. cbn [map snd]. f_equal. apply I2. left. reflexivity.
      * cbn [filter fst]. pose proof (G k (in_map fst _ _ Q)) as J. rewrite (proj2 (Z.eqb_neq a k)) by lia. apply I2. right. exact Q.
    + assert (LT : a < a') by (pose proof (K a' (or_introl eq_refl)); lia). split.
      * cbn [map fst]. constructor; [constructor; [exact I1|rewrite Forall_forall; exact G]|]. rewrite Forall_forall. intros k [<-|Q]; [exact LT|]. apply G in Q. lia.
      * intros k ws [Q|Q].
        -- assert (a = k /\ [v] = ws) as [<- <-] by (split; congruence). cbn [filter fst]. rewrite Z.eqb_refl, FN; [reflexivity|]. intros [Q'|Q']; [lia|]. apply G in Q'. lia.
        -- cbn [filter fst]. assert (J : a' <= k) by (destruct Q as [Q|Q]; [assert (a' = k) by congruence; lia|pose proof (G k (in_map fst _ _ Q)); lia]). rewrite (proj2 (Z.eqb_neq a k)) by lia. apply I2. exact Q.
Qed.

(* ---------- the columns ---------- *)
Definition ev_le (a b : vhedge) : Prop := pt_less (fst b) (fst a) = false.
Lemma ss_map_le {A B : Type} (f : A -> B) (R : A -> A -> Prop) (Q : B -> B -> Prop) l : (forall a b, In a l -> In b l -> R a b -> Q (f a) (f b)) -> StronglySorted R l -> StronglySorted Q (map f l).
Proof.
  intros H S. induction S as [|a l S IH F]; [constructor|]. cbn [map]. constructor; [apply IH; intros b c Hb Hc; apply H; right; assumption|]. rewrite Forall_forall in *. intros b Hb. apply in_map_iff in Hb as [c [<- C]]. apply H; [left; reflexivity|right; exact C|apply F, C].
Qed.
Lemma ss_filter {A : Type} (R : A -> A -> Prop) (c : A -> bool) l : StronglySorted R l -> StronglySorted R (filter c l).
Proof.
  intros S. induction S as [|a l S IH F]; [constructor|]. cbn [filter]. destruct (c a); [|exact IH]. constructor; [exact IH|]. rewrite Forall_forall in *. intros b B. apply filter_In in B as [B _]. apply F, B.
Qed.
Lemma filter_map' {A B : Type} (f : A -> B) (c : B -> bool) l : filter c (map f l) = map f (filter (fun a => c (f a)) l).
Proof. induction l as [|a l IH]; [reflexivity|]. cbn [map filter]. destruct (c (f a)); cbn [map]; rewrite IH; reflexivity. Qed.
Lemma filter_filter' {A : Type} (c d : A -> bool) l : filter c (filter d l) = filter (fun a => d a && c a) l.
Proof. induction l as [|a l IH]; [reflexivity|]. cbn [filter]. destruct (d a); cbn [filter andb]; rewrite IH; reflexivity. Qed.
Lemma perm_filter {A : Type} (c : A -> bool) l m : Permutation l m -> Permutation (filter c l) (filter c m).
Proof.
  intros P. induction P as [|a l m P IH|a b l|l m n P IH P' IH']; [constructor| | |eapply Permutation_trans; eassumption]; cbn [filter].
  - destruct (c a); [apply perm_skip|]; exact IH.
  - destruct (c a), (c b); try apply Permutation_refl. apply perm_swap.
Qed.
Lemma columns_ok evs : StronglySorted ev_le evs -> StronglySorted Z.lt (map fst (columns_of evs)) /\ (forall X, In X (map fst (columns_of evs)) <-> exists y, In (mk_pt X y) (map fst evs)) /\
  forall X ys, In (X, ys) (columns_of evs) -> (forall y, In y (map fst ys) <-> In (mk_pt X y) (map fst evs)) /\ StronglySorted Z.lt (map fst ys) /\
    (forall y es, In (y, es) ys -> es = map snd (filter (fun e => eq_pt (fst e) (mk_pt X y)) evs)).
Proof.
  intros S. unfold columns_of. set (f := fun e : vhedge => (px (fst e), (py (fst e), snd e))).
  assert (S1 : StronglySorted key_le (map f evs)). { apply (ss_map_le f ev_le key_le); [|exact S]. intros a b _ _ L. unfold ev_le, pt_less in L. unfold key_le, f. cbn [fst]. lia. }
  destruct (group_ok (map f evs) S1) as [G1 G2]. rewrite map_map. cbn [fst].
  split; [exact G1|]. split.
  { intros X. etransitivity; [apply (group_keys (map f evs))|]. rewrite map_map. rewrite in_map_iff. unfold f. cbn [fst]. split.
    - intros [e [Q H]]. exists (py (fst e)). apply in_map_iff. exists e. split; [|exact H]. destruct (fst e) as [a b]. cbn [px py] in *. congruence.
    - intros [y H]. apply in_map_iff in H as [e [Q H]]. exists e. split; [rewrite Q; reflexivity|exact H]. }
  intros X ys H. apply in_map_iff in H as [[X' g] [Q H]]. cbn [fst snd] in Q. assert (X' = X /\ group g = ys) as [-> <-] by (split; congruence). clear Q. apply G2 in H.
  assert (GE : g = map (fun e : vhedge => (py (fst e), snd e)) (filter (fun e => px (fst e) =? X) evs)).
  { rewrite H. rewrite filter_map'. rewrite map_map. reflexivity. }
  assert (S2 : StronglySorted key_le g).
  { rewrite GE. apply (ss_map_le _ ev_le key_le); [|apply ss_filter, S]. intros a b A B L. apply filter_In in A as [_ A]. apply filter_In in B as [_ B]. unfold ev_le, pt_less in L. unfold key_le. cbn [fst]. lia. }
  destruct (group_ok g S2) as [K1 K2]. split; [|split; [exact K1|]].
  - intros y. etransitivity; [apply group_keys|]. rewrite GE, map_map, !in_map_iff. cbn [fst]. split.
    + intros [e [Q I]]. apply filter_In in I as [I J]. exists e. split; [|exact I]. destruct (fst e) as [a b]. cbn [px py] in *. f_equal; lia.
    + intros [e [Q I]]. exists e. split; [rewrite Q; reflexivity|]. apply filter_In. split; [exact I|]. rewrite Q. cbn [px]. apply Z.eqb_refl.
  - intros y es I. apply K2 in I. rewrite I, GE, filter_map', map_map, filter_filter'. cbn [fst snd]. f_equal.
Qed.

Section main.
  Variable r : list pedge.
  Hypothesis nd : NoDup (map fst r).
  Hypothesis nod0 : noded (map fst r).
  Hypothesis ge : good_edges r.
  Hypothesis one : forall e c, In (e, c) r -> c = 1 \/ c = -1.
  Hypothesis clo : closed (as_set r).
  Hypothesis dep : forall x y, b01 (depth_below (as_set r) 0 x y) /\ b01 (depth_below_left (as_set r) 0 x y).
  Notation l := (fl r).
  Notation E := (map fst (fl r)).

  Lemma half_in p : In p (map fst (half_edges r)) <-> vertex l (px p) (py p).
  Proof.
    unfold vertex. replace (mk_pt (px p) (py p)) with p by (destruct p; reflexivity). rewrite E_r. unfold half_edges. split.
    - intros H. apply in_map_iff in H as [h [<- H]]. apply in_flat_map in H as [e [He H]]. exists (fst e). split; [apply in_map, He|]. destruct H as [<-|[<-|[]]]; cbn [fst]; auto.
    - intros [s [H K]]. apply in_map_iff in H as [e [<- He]]. apply in_map_iff. destruct K as [K|K].
      + exists (s_low (fst e), (s_high (fst e), snd e)). split; [exact K|]. apply in_flat_map. exists e. split; [exact He|left; reflexivity].
      + exists (s_high (fst e), (s_low (fst e), -1 * snd e)). split; [exact K|]. apply in_flat_map. exists e. split; [exact He|right; left; reflexivity].
  Qed.
  Lemma half_starts X y : filter (fun e => pt_less (mk_pt X y) (fst e)) (map snd (filter (fun e => eq_pt (fst e) (mk_pt X y)) (half_edges r))) = starts r X y.
  Proof.
    set (p := mk_pt X y). unfold starts. fold p. assert (O : forall e, In e r -> pt_less (s_low (fst e)) (s_high (fst e)) = true) by (intros e He; apply (ge e He)).
    clear - O. induction r as [|e m IH]; [reflexivity|]. assert (I := IH (fun f F => O f (or_intror F))). pose proof (O e (or_introl eq_refl)) as L. clear IH O.
    unfold half_edges in *. cbn [flat_map]. cbn [app filter fst].
    destruct (eq_pt (s_low (fst e)) p) eqn:Q1.
    - apply eq_pt_iff in Q1. assert (Q2 : eq_pt (s_high (fst e)) p = false). { apply not_true_iff_false. rewrite eq_pt_iff. intros Q2. rewrite Q1, Q2 in L. unfold pt_less in L. lia. }
      rewrite Q2. cbn [map filter snd fst]. rewrite <- Q1 at 1. rewrite L. f_equal. exact I.
    - destruct (eq_pt (s_high (fst e)) p) eqn:Q2; [|exact I]. apply eq_pt_iff in Q2. cbn [map filter snd fst]. assert (pt_less p (s_low (fst e)) = false) as ->; [|exact I]. rewrite <- Q2. unfold pt_less in *. lia.
  Qed.
  Lemma form_ok : exists gs, form_polygons r = Ok gs /\ (forall g, In g gs -> rings_ok (rings g)) /\ Permutation (ring_steps gs) (map directed r).
  Proof.
    destruct (o_sort_ok vh_less (fun a b => pt_less (fst a) (fst b) = true) ev_le (half_edges r)) as [evs [S1 [S2 S3]]].
    - intros a b _ _. exists (pt_less (fst b) (fst a)). split; reflexivity.
    - intros a b _ _ H. unfold ev_le, pt_less in *. lia.
    - intros a b _ _ H. unfold ev_le. apply not_true_iff_false. exact H.
    - intros a b c _ _ _ H1 H2. unfold ev_le, pt_less in *. lia.
    - destruct (columns_ok evs S3) as [C1 [C2 C3]].
      assert (VI : forall X y, In (mk_pt X y) (map fst evs) <-> vertex l X y).
      { intros X y. rewrite <- (half_in (mk_pt X y)). split; apply Permutation_in; apply Permutation_map; [apply Permutation_sym|]; exact S2. }
      destruct (scan_ok r nd nod0 ge one clo dep (columns_of evs)) with (X0 := match columns_of evs with (X, _) :: _ => X - 1 | [] => 0 end) (d := @nil felem) (st := mk_f [] O []) as [st [Q [[op I] TT]]].
      + intros X ys H. destruct (C3 X ys H) as [K1 [K2 K3]]. split; [intros y; rewrite <- VI; symmetry; apply K1|]. split; [|exact K2]. intros y es He. rewrite (K3 y es He). rewrite <- half_starts. apply perm_filter, Permutation_map, perm_filter, Permutation_sym, S2.
      + exact C1.
      + intros X H. destruct (columns_of evs) as [|[X0 ys0] cols]; [destruct H|]. cbn [map fst] in *. apply StronglySorted_inv in C1 as [_ F]. rewrite Forall_forall in F. destruct H as [<-|H]; [lia|]. apply F in H. lia.
      + intros X [y V]. right. apply C2. exists y. apply VI, V.
      + split; [constructor|intros a []].
      + intros e. split; [intros []|]. intros [He K]. exfalso. assert (IC : In (px (s_low e)) (map fst (columns_of evs))). { apply C2. exists (py (s_low e)). apply VI. apply (low_vertex r _ e He eq_refl). }
        destruct (columns_of evs) as [|[X0 ys0] cols]; [destruct IC|]. cbn [map fst] in *. apply StronglySorted_inv in C1 as [_ F]. rewrite Forall_forall in F. destruct IC as [IC|IC]; [lia|]. apply F in IC. lia.
      + intros a [].
      + exists []. constructor; cbn [f_chains f_out flat_map map app]; [apply Permutation_refl|apply Permutation_refl|constructor|intros ? []|intros ? []|intros ? []|intros ? []].
      + unfold T. cbn [f_chains f_out flat_map app]. rewrite filter_none; [apply Permutation_refl|]. intros [e c] I. cbn [fst]. pose proof (r_E r e c I) as He. assert (IC : In (px (s_high e)) (map fst (columns_of evs))). { apply C2. exists (py (s_high e)). apply VI. apply (high_vertex r _ e He eq_refl). }
        unfold upto. destruct (columns_of evs) as [|[X0 ys0] cols]; [destruct IC|]. cbn [map fst] in *. apply StronglySorted_inv in C1 as [_ F]. rewrite Forall_forall in F. destruct IC as [IC|IC]; [lia|]. apply F in IC. lia.
      + exists (f_out st). split; [unfold form_polygons; rewrite S1; cbn [obind]; rewrite Q; reflexivity|]. destruct I as [I1 I2 _ _ _ _ I7]. split; [exact I7|].
        assert (op = []) as ->. { destruct op as [|c op]; [reflexivity|]. cbn [flat_map] in I2. apply Permutation_sym, Permutation_nil in I2. unfold ends in I2. discriminate I2. }
        cbn [app] in I1. apply Permutation_sym, Permutation_nil in I1. unfold T in TT. rewrite I1 in TT. cbn [flat_map app] in TT. unfold ring_steps. replace (flat_map path_edges (flat_map rings (f_out st))) with (flat_map gp_edges (f_out st)); [exact TT|].
        clear. induction (f_out st) as [|g gs IH]; [reflexivity|]. cbn [flat_map]. rewrite flat_map_app, <- IH. reflexivity.
  Qed.
End main.
