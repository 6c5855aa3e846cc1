(* polygon_90_set_data::interact. *)
From Verif Require Import Base Scan90Spec BoolOpModel VertexLemmas ScanMap ScanProcess ScanStep Set90Spec Set90Model
  Poly90Vertices Set90Lemmas Set90Proofs Set90History Set90Cor TouchSpec TouchModel TouchStep TouchEvent TouchPop
  TouchSweep TouchCor.

(* ---------- the graph holds sets ---------- *)
Definition gset (g : graph) : Prop := Forall sset g.
Lemma g_update_gset n b : forall g g', gset g -> g_update n b g = Some g' -> gset g'.
Proof.
  induction n as [|n IH]; intros g g' Hg E; destruct g as [|s g]; cbn [g_update] in E; try discriminate E;
    inversion Hg as [|s0 g0 H1 H2]; subst.
  - assert (Eg : g' = set_insert b s :: g) by congruence. subst g'. constructor; [apply set_insert_sset; exact H1|exact H2].
  - destruct (g_update n b g) as [g1|] eqn:E1; [|discriminate E]. cbn [bind] in E.
    assert (Eg : g' = s :: g1) by congruence. subst g'. constructor; [exact H1|apply (IH g); assumption].
Qed.
Lemma g_insert_gset a b g g' : gset g -> g_insert a b g = Some g' -> gset g'.
Proof. unfold g_insert. destruct (a <? 0); [discriminate|]. apply g_update_gset. Qed.
Ltac step H := match type of H with bind ?x _ = Some _ =>
  let E := fresh "Eq" in destruct x as [?|] eqn:E; [cbn [bind] in H|discriminate H] end.
Lemma evaluateBorderId_gset ids : forall ch g g', gset g -> evaluateBorderId ids ch g = Some g' -> gset g'.
Proof.
  induction ids as [|j ids IH]; intros ch g g' Hg E; cbn [evaluateBorderId] in E; [congruence|].
  step E. apply (IH ch g0); [|exact E]. destruct (negb (ch =? j)); [|congruence].
  step Eq. eapply g_insert_gset; [|exact Eq]. eapply g_insert_gset; eassumption.
Qed.
Lemma evaluateBorder_gset ids cs : forall g g', gset g -> evaluateBorder ids cs g = Some g' -> gset g'.
Proof.
  induction cs as [|j cs IH]; intros g g' Hg E; cbn [evaluateBorder] in E; [congruence|].
  step E. apply (IH g0); [|exact E]. eapply evaluateBorderId_gset; eassumption.
Qed.
Lemma evaluateIds_gset lead cs : forall ids g ids' g', gset g -> evaluateIds ids cs lead g = Some (ids', g') -> gset g'.
Proof.
  induction cs as [|j cs IH]; intros ids g ids' g' Hg E; cbn [evaluateIds] in E; [congruence|].
  step E. destruct p as [ids1 g1]. apply (IH ids1 g1 ids' g'); [|exact E].
  unfold evaluateId in Eq. destruct (negb (set_mem j ids)).
  - destruct lead; [|congruence]. step Eq. assert (Eg : g0 = g1) by congruence. subst. eapply evaluateBorderId_gset; eassumption.
  - destruct (negb lead); congruence.
Qed.
Lemma touch_loop_gset fuel : forall itr hi ids lead m g m' g', gset g ->
  touch_loop fuel itr hi ids lead m g = Some (m', g') -> gset g'.
Proof.
  induction fuel as [|fuel IH]; intros itr hi ids lead m g m' g' Hg E; cbn [touch_loop] in E; [discriminate E|].
  destruct (iter_eqb itr hi); [congruence|]. step E. destruct p as [k b]. step E. step E. destruct p as [aft g1].
  eapply IH; [|exact E]. eapply evaluateIds_gset; eassumption.
Qed.
Lemma touch_interval_gset s lo hi ids lead g s' g' : gset g -> touch_interval s lo hi ids lead g = Some (s', g') -> gset g'.
Proof.
  intros Hg E. unfold touch_interval in E. step E. destruct p as [lowItr s1]. step E. destruct p as [highItr s2].
  destruct lowItr as [k|].
  - step E. step E. destruct p as [h' s3]. step E. step E. destruct p as [l' s4]. step E. destruct p as [m1 g3].
    step E. step E. destruct p as [h2 m3]. assert (Eg : g3 = g') by congruence. subst g'.
    eapply touch_loop_gset; [|eassumption].
    assert (G0 : gset g0).
    { unfold border_high in Eq1. destruct highItr as [kh|]; [|congruence]. step Eq1. destruct p as [k1 v1].
      destruct (k1 >? hi); [congruence|]. destruct lead; [|congruence]. eapply evaluateBorder_gset; eassumption. }
    unfold border_low in Eq3. step Eq3. destruct p as [k1 v1]. destruct (k1 >? lo); [congruence|].
    match type of Eq3 with (if ?b then _ else _) = _ => destruct b; [|congruence] end.
    step Eq3. step Eq3. destruct p as [k2 v2]. eapply evaluateBorder_gset; eassumption.
  - step E. destruct p as [i1 s3]. step E. step E. destruct p as [i2 s4]. assert (Eg : g0 = g') by congruence. subst.
    eapply evaluateBorder_gset; eassumption.
Qed.
Lemma event_loop_gset fuel : forall e lead s g s' g', gset g -> event_loop fuel e lead s g = Some (s', g') -> gset g'.
Proof.
  induction fuel as [|fuel IH]; intros e lead s g s' g' Hg E; cbn [event_loop] in E; [discriminate E|].
  destruct (ei_rest e); [congruence|]. step E. step E. step E. destruct p0 as [s1 g1]. step E.
  eapply IH; [|exact E]. eapply touch_interval_gset; eassumption.
Qed.
Lemma processEvent_gset m lead s g s' g' : gset g -> processEvent m lead s g = Some (s', g') -> gset g'.
Proof. intros Hg E. unfold processEvent in E. step E. eapply event_loop_gset; eassumption. Qed.
Lemma touch_events_gset fuel : forall L R s g g', gset g -> touch_events fuel L R s g = Some g' -> gset g'.
Proof.
  induction fuel as [|fuel IH]; intros L R s g g' Hg E; cbn [touch_events] in E.
  - destruct L, R; try discriminate E. congruence.
  - destruct L as [|[xl el] L], R as [|[xr er] R]; try discriminate E; try congruence.
    + step E. destruct p as [s1 g1]. eapply IH; [|exact E]. eapply processEvent_gset; eassumption.
    + destruct (xl <=? xr); step E; destruct p as [s1 g1]; (eapply IH; [|exact E]; eapply processEvent_gset; eassumption).
Qed.

(* ---------- interact ---------- *)
Lemma conn_ok_start that that1 : ps_ok that -> (ps_dirty that = true \/ ps_unsorted that = false) ->
  (if ps_dirty that then ps_clean that else Some that) = Some that1 ->
  conn_ok (mk_conn (populateTouchSetData INT_MAX ([], []) (ps_data that1) 0) 1) [ps_data that1] /\
  cleaned that (ps_data that1).
Proof.
  intros Hok Hd E.
  assert (G : cleaned that (ps_data that1)).
  { destruct (ps_dirty that) eqn:Ed.
    - destruct (clean_cells that Hok) as [s1 [E1 [G C]]]. assert (s1 = that1) by congruence. subst. split; assumption.
    - assert (that = that1) by congruence. subst that1. destruct Hd as [Hd|Hd]; [discriminate Hd|].
      destruct (ok_clean that Hok Ed) as [H1 H2]. split.
      + split; [apply (ok_sorted _ Hok); exact Hd|]. split; [apply (ok_closed _ Hok)|]. exact H2.
      + intros x y. reflexivity. }
  split; [|exact G].
  pose proof (conn_ok_new) as Hn.
  destruct Hn as [_ [H2 [H3 H4]]]. destruct G as [[G1 [[G2 _] _]] _].
  destruct (populate_spec INT_MAX ([], []) (ps_data that1) 0 H2 H3 G1 G2) as [K1 [K2 K3]].
  { intros lead x y. destruct lead; reflexivity. }
  split; [reflexivity|]. split; [exact K1|]. split; [exact K2|]. intros lead i x y. cbn [cn_data]. rewrite K3.
  destruct (Z.eqb_spec i 0) as [->|Hi]; [reflexivity|]. unfold nthZ.
  destruct (Z.ltb_spec i 0) as [Hl|Hl]; [destruct lead; reflexivity|].
  destruct (Z.to_nat i) as [|n] eqn:En; [lia|]. cbn [nth_error]. destruct n, lead; reflexivity.
Qed.

Definition poly_covers (p : poly90) (x y : Z) : Prop := 0 < poly_count p x y.

Lemma interact_data_ok o polys : forall c Vs, conn_ok c Vs -> Forall poly_ok polys ->
  match interact_data o polys c with
  | Ok c' => exists l Ws, conn_ok c' (Vs ++ Ws) /\ Forall2 cleaned l Ws /\
      Forall2 (fun p s => ps_orient s = o /\ forall x y, ps_covers s x y <-> poly_covers p x y) polys l
  | Overflow => True
  | Undefined => False
  end.
Proof.
  induction polys as [|p polys IH]; intros c Vs Hc Hp; cbn [interact_data].
  - exists [], []. rewrite app_nil_r. split; [exact Hc|]. split; constructor.
  - inversion Hp as [|p0 l0 H1 H2]; subst.
    pose proof (ps_insert_poly_spec (ps_new o) p false (ps_new_ok o) H1) as K.
    destruct (ps_insert_poly (ps_new o) p false) as [s| |]; cbn [obind]; [|exact I|exact K].
    destruct K as [K1 [K2 K3]]. cbn [ps_new ps_orient] in K2, K3.
    destruct (clean_cells s K1) as [s1 [E [G C]]].
    destruct (conn_ok_insert c Vs s s1 Hc E G) as [c1 [E1 Hc1]]. rewrite E1.
    specialize (IH c1 _ Hc1 H2). destruct (interact_data o polys c1) as [c2| |]; [|exact I|exact IH].
    destruct IH as [l [Ws [I1 [I2 I3]]]]. exists (s :: l), (ps_data s1 :: Ws).
    split; [rewrite <- app_assoc in I1; exact I1|]. split; [constructor; [split; assumption|exact I2]|].
    constructor; [|exact I3]. split; [exact K2|]. intros x y. unfold ps_covers, ps_count, poly_covers. rewrite K2, K3.
    cbn [ps_new ps_data]. assert (E0 : wind o [] x y = 0) by (destruct o; reflexivity). rewrite E0.
    replace (0 + 1 * poly_count p x y) with (poly_count p x y) by lia. reflexivity.
Qed.

Lemma edge_repeat n a b : ~ edge (repeat [] n) a b.
Proof.
  intros [_ [s [E H]]]. apply nth_error_In in E. apply repeat_spec in E. subst s. destruct H.
Qed.
Lemma Forall2_len {A B : Type} (P : A -> B -> Prop) l m : Forall2 P l m -> length l = length m.
Proof. induction 1 as [|a b l m _ _ IH]; [reflexivity|cbn [length]; congruence]. Qed.

Lemma share_point_iff R R' S S' : (forall x y, R x y <-> R' x y) -> (forall x y, S x y <-> S' x y) ->
  share_point R S -> share_point R' S'.
Proof. rewrite !share_point_near. apply near_cells_iff. Qed.

Theorem interact_ids_spec that polys : ps_ok that -> (ps_dirty that = true \/ ps_unsorted that = false) ->
  Forall poly_ok polys ->
  match interact_ids that polys with
  | Ok ids => sset ids /\ forall b, In b ids <-> exists p, nthZ polys (b - 1) = Some p /\ share_point (ps_covers that) (poly_covers p)
  | Overflow => True
  | Undefined => False
  end.
Proof.
  intros Hok Hd Hp. unfold interact_ids.
  assert (Hthat : exists that1, (if ps_dirty that then ps_clean that else Some that) = Some that1).
  { destruct (ps_dirty that); [|exists that; reflexivity]. destruct (clean_cells that Hok) as [s1 [E _]]. exists s1. exact E. }
  destruct Hthat as [that1 E1]. rewrite E1.
  destruct (conn_ok_start that that1 Hok Hd E1) as [Hc G].
  pose proof (interact_data_ok (ps_orient that) polys _ _ Hc Hp) as K.
  destruct (interact_data (ps_orient that) polys _) as [c| |]; cbn [obind]; [|exact I|exact K].
  destruct K as [l [Ws [K1 [K2 K3]]]]. cbn [app] in K1.
  assert (F : Forall2 cleaned (that :: l) (ps_data that1 :: Ws)) by (constructor; assumption).
  assert (HL : length polys = length Ws) by (rewrite (Forall2_len _ _ _ K3); apply (Forall2_len _ _ _ K2)).
  assert (HG : Forall good_cells (ps_data that1 :: Ws)).
  { clear - F. revert F. generalize (that :: l) (ps_data that1 :: Ws). intros l0 W0 F.
    induction F as [|s V l0 W0 H _ IH]; constructor; [apply H|exact IH]. }
  assert (Ho : Forall (fun s => ps_orient s = ps_orient that) (that :: l)).
  { constructor; [reflexivity|]. clear - K3. induction K3 as [|p s polys l H _ IH]; constructor; [apply H|exact IH]. }
  destruct (conn_extract_ok c (ps_data that1 :: Ws) (repeat [] (S (length polys))) K1 HG) as [g' [E' [A1 A2]]].
  { rewrite repeat_length. cbn [length]. lia. }
  assert (HS : gset g').
  { unfold conn_extract, performTouch in E'. eapply touch_events_gset; [|exact E'].
    apply Forall_forall. intros s Hs. apply repeat_spec in Hs. subst. constructor. }
  unfold conn_extract in E'. rewrite E'. rewrite repeat_length in A1. destruct g' as [|ids g']; [discriminate A1|].
  split; [inversion HS; assumption|]. intros b.
  assert (He : In b ids <-> edge (ids :: g') 0 b).
  { split.
    - intros Hb. split; [lia|]. exists ids. split; [reflexivity|exact Hb].
    - intros [_ [s [Es Hs]]]. cbn [Z.to_nat nth_error] in Es. congruence. }
  rewrite He, A2. rewrite (pairs_cor (that :: l) (ps_data that1 :: Ws) (ps_orient that) Ho F 0 b).
  assert (Hn0 : nthZ (that :: l) 0 = Some that) by reflexivity.
  assert (Hnb : b <> 0 -> nthZ (that :: l) b = nthZ l (b - 1)).
  { intros Hb. unfold nthZ. destruct (Z.ltb_spec b 0) as [H1|H1], (Z.ltb_spec (b - 1) 0) as [H2|H2]; try lia; try reflexivity.
    replace (Z.to_nat b) with (S (Z.to_nat (b - 1))) by lia. reflexivity. }
  split.
  - intros [H|[H0 [s [t [Hs [Ht Hsp]]]]]]; [contradiction (edge_repeat _ _ _ H)|].
    rewrite Hnb in Ht by lia. destruct (Forall2_nthZ _ _ _ K3 _ _ Ht) as [p [Hpp [_ Hc']]].
    exists p. split; [exact Hpp|]. assert (s = that) by congruence. subst s.
    eapply share_point_iff; [| |exact Hsp]; [reflexivity|exact Hc'].
  - intros [p [Hpp Hsp]]. right.
    destruct (Forall2_nthZ' _ _ _ K3 _ _ Hpp) as [t [Ht [_ Hc']]].
    apply nthZ_range in Hpp. split; [lia|]. exists that, t. split; [exact Hn0|]. split; [rewrite Hnb by lia; exact Ht|].
    eapply share_point_iff; [| |exact Hsp]; [reflexivity|]. intros x y. symmetry. apply Hc'.
Qed.

Lemma insert_selected_spec polys ids : forall s, ps_ok s -> Forall poly_ok polys ->
  (forall i, In i ids -> exists p, nthZ polys (i - 1) = Some p) ->
  match insert_selected s polys ids with
  | Ok s' => ps_ok s' /\ ps_orient s' = ps_orient s /\
      forall x y, ps_count s' x y = ps_count s x y +
        zsum (fun i => match nthZ polys (i - 1) with Some p => poly_count p x y | None => 0 end) ids
  | Overflow => True
  | Undefined => False
  end.
Proof.
  induction ids as [|i ids IH]; intros s Hs Hp Hi; cbn [insert_selected].
  - split; [exact Hs|]. split; [reflexivity|]. intros x y. unfold zsum. cbn [fold_right]. lia.
  - destruct (Hi i (or_introl eq_refl)) as [p Ep]. pose proof (nthZ_range _ _ _ Ep) as Hr.
    destruct (Z.ltb_spec i 1) as [H1|H1]; [lia|].
    assert (En : nth_error polys (Z.to_nat (i - 1)) = Some p).
    { unfold nthZ in Ep. destruct (i - 1 <? 0); [discriminate Ep|exact Ep]. }
    rewrite En.
    assert (Hpok : poly_ok p) by (rewrite Forall_forall in Hp; apply Hp; eapply nthZ_In; exact Ep).
    pose proof (ps_insert_poly_spec s p false Hs Hpok) as K.
    destruct (ps_insert_poly s p false) as [s1| |]; cbn [obind]; [|exact I|exact K].
    destruct K as [K1 [K2 K3]].
    specialize (IH s1 K1 Hp (fun j Hj => Hi j (or_intror Hj))).
    destruct (insert_selected s1 polys ids) as [s2| |]; [|exact I|exact IH].
    destruct IH as [I1 [I2 I3]]. split; [exact I1|]. split; [congruence|]. intros x y. rewrite I3.
    unfold zsum. cbn [fold_right]. rewrite Ep. unfold ps_count at 1. rewrite K2, K3. unfold ps_count. lia.
Qed.

Theorem interact_spec s that polys : ps_ok that -> (ps_dirty that = true \/ ps_unsorted that = false) ->
  Forall poly_ok polys ->
  match ps_interact s that polys with
  | Ok s' => ps_orient s' = ps_orient s /\ exists ids, NoDup ids /\
      (forall b, In b ids <-> exists p, nthZ polys (b - 1) = Some p /\ share_point (ps_covers that) (poly_covers p)) /\
      forall x y, ps_count s' x y =
        zsum (fun i => match nthZ polys (i - 1) with Some p => poly_count p x y | None => 0 end) ids
  | Overflow => True
  | Undefined => False
  end.
Proof.
  intros Hok Hd Hp. unfold ps_interact. pose proof (interact_ids_spec that polys Hok Hd Hp) as K.
  destruct (interact_ids that polys) as [ids| |]; cbn [obind]; [|exact I|exact K].
  destruct K as [K1 K2].
  pose proof (insert_selected_spec polys ids (ps_clear s) (ps_clear_ok s) Hp) as S1.
  assert (Hi : forall i, In i ids -> exists p, nthZ polys (i - 1) = Some p).
  { intros i Hi. apply K2 in Hi. destruct Hi as [p [Hp' _]]. exists p. exact Hp'. }
  specialize (S1 Hi). destruct (insert_selected (ps_clear s) polys ids) as [s1| |]; cbn [obind]; [|exact I|exact S1].
  destruct S1 as [S1 [S2 S3]]. cbn [ps_orient]. split; [rewrite S2; reflexivity|].
  exists ids. split; [apply sset_NoDup; exact K1|]. split; [exact K2|]. intros x y.
  unfold ps_count at 1. cbn [ps_orient ps_data]. fold (ps_count s1 x y). rewrite S3.
  unfold ps_count. cbn [ps_clear ps_orient ps_data]. destruct (ps_orient s); reflexivity.
Qed.
