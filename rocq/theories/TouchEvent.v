(* TouchScanEvent: what an event stands for, and processEvent. *)
From Verif Require Import Base Scan90Spec BoolOpModel ScanMap ScanProcess ScanStep Set90Spec Set90Model TouchSpec TouchModel TouchStep.

(* the ids whose interval covers y: an odd number of end points at or below y *)
Fixpoint act (i : Z) (m : event) (y : Z) : bool :=
  match m with
  | [] => false
  | (k, s) :: m' => xorb ((k <=? y) && set_mem i s) (act i m' y)
  end.

Definition toggles (s ids : idset) : idset := fold_left (fun ids i => set_toggle i ids) s ids.
Lemma toggles_sset s : forall ids, sset ids -> sset (toggles s ids).
Proof. induction s as [|i s IH]; intros ids H; [exact H|]. cbn [toggles fold_left]. apply IH. apply set_toggle_sset. exact H. Qed.
Lemma toggles_mem s : forall ids j, NoDup s -> set_mem j (toggles s ids) = xorb (set_mem j s) (set_mem j ids).
Proof.
  induction s as [|i s IH]; intros ids j Hn; [destruct (set_mem j ids) eqn:E; unfold toggles; cbn [fold_left]; rewrite E; reflexivity|].
  inversion Hn as [|x l H1 H2]; subst. change (toggles (i :: s) ids) with (toggles s (set_toggle i ids)).
  rewrite IH by exact H2. rewrite set_mem_toggle. cbn [set_mem existsb].
  fold (set_mem j s). destruct (Z.eqb_spec j i) as [->|]; [|destruct (set_mem j s), (set_mem j ids); reflexivity].
  replace (set_mem i s) with false by (symmetry; apply set_mem_false; exact H1).
  destruct (set_mem i ids); reflexivity.
Qed.

Definition ev_sets (m : event) : Prop := Forall (fun p => sset (snd p)) m.

Lemma act_below i m y : kge (y + 1) m -> act i m y = false.
Proof.
  induction m as [|[k s] m IH]; intros H; [reflexivity|]. apply kge_cons in H. cbn [act].
  destruct (Z.leb_spec k y); [lia|]. cbn [andb]; rewrite ?xorb_false_l. rewrite IH by apply H. reflexivity.
Qed.

Lemma ev_insert_pos_act pos id i y m :
  act i (ev_insert_pos pos id m) y = xorb ((i =? id) && (pos <=? y)) (act i m y).
Proof.
  induction m as [|[k s] m IH]; cbn [ev_insert_pos act].
  - cbn [set_mem existsb]. destruct (i =? id), (pos <=? y); reflexivity.
  - destruct (Z.ltb_spec k pos); cbn [act].
    + rewrite IH. destruct ((k <=? y) && set_mem i s), ((i =? id) && (pos <=? y)), (act i m y); reflexivity.
    + destruct (Z.eqb_spec k pos); cbn [act].
      * subst k. rewrite set_mem_toggle.
        destruct (pos <=? y), (i =? id), (set_mem i s), (act i m y); reflexivity.
      * cbn [set_mem existsb]. destruct (i =? id), (pos <=? y), (k <=? y), (set_mem i s), (act i m y); reflexivity.
Qed.
Lemma ev_insert_act low high id i y m : low <= high ->
  act i (ev_insert low high id m) y = xorb ((i =? id) && ((low <=? y) && (y <? high))) (act i m y).
Proof.
  intros H. unfold ev_insert. rewrite !ev_insert_pos_act.
  destruct (i =? id); cbn [andb]; rewrite ?xorb_false_l; [|destruct (act i m y); reflexivity].
  destruct (Z.leb_spec low y), (Z.leb_spec high y), (Z.ltb_spec y high); try lia; destruct (act i m y); reflexivity.
Qed.
Lemma ev_insert_pos_keys pos id k m : In k (map fst (ev_insert_pos pos id m)) <-> k = pos \/ In k (map fst m).
Proof.
  induction m as [|[k0 s] m IH]; cbn [ev_insert_pos map fst In].
  - intuition congruence.
  - destruct (k0 <? pos); cbn [map fst In]; [rewrite IH; intuition congruence|].
    destruct (Z.eqb_spec k0 pos); cbn [map fst In]; intuition congruence.
Qed.
Lemma keys_klt k (m : event) : klt k m <-> forall j, In j (map fst m) -> j < k.
Proof.
  unfold klt. rewrite Forall_forall. split.
  - intros H j Hj. apply in_map_iff in Hj. destruct Hj as [p [<- Hp]]. apply H. exact Hp.
  - intros H p Hp. apply H. apply in_map. exact Hp.
Qed.
Lemma keys_kge k (m : event) : kge k m <-> forall j, In j (map fst m) -> k <= j.
Proof.
  unfold kge. rewrite Forall_forall. split.
  - intros H j Hj. apply in_map_iff in Hj. destruct Hj as [p [<- Hp]]. apply H. exact Hp.
  - intros H p Hp. apply H. apply in_map. exact Hp.
Qed.
Lemma ev_insert_pos_sorted pos id m : ksorted m -> ksorted (ev_insert_pos pos id m).
Proof.
  induction m as [|[k s] m IH]; intros H; cbn [ev_insert_pos].
  - apply ksorted_cons. split; constructor.
  - pose proof H as H0. apply ksorted_cons in H. destruct H as [H1 H2].
    destruct (Z.ltb_spec k pos).
    + apply ksorted_cons. split; [apply IH; exact H1|]. apply keys_kge. intros j Hj.
      apply ev_insert_pos_keys in Hj. destruct Hj as [->|Hj]; [lia|]. apply (proj1 (keys_kge _ _) H2). exact Hj.
    + destruct (Z.eqb_spec k pos).
      * apply ksorted_cons. split; assumption.
      * apply ksorted_cons. split; [exact H0|]. apply kge_cons. split; [lia|]. eapply kge_weaken; [|exact H2]. lia.
Qed.
Lemma ev_insert_pos_sets pos id m : ev_sets m -> ev_sets (ev_insert_pos pos id m).
Proof.
  unfold ev_sets. induction m as [|[k s] m IH]; intros H; cbn [ev_insert_pos].
  - constructor; [|constructor]. cbn [snd]. constructor; constructor.
  - inversion H as [|x l H1 H2]; subst. cbn [snd] in H1. destruct (k <? pos); [constructor; [exact H1|apply IH; exact H2]|].
    destruct (k =? pos); [constructor; [apply set_toggle_sset; exact H1|exact H2]|].
    constructor; [cbn [snd]; constructor; constructor|exact H].
Qed.

(* well-formed events: every end point bounds an interval of some id, all
   intervals are closed *)
Definition ev_ok (m : event) : Prop :=
  ksorted m /\ ev_sets m /\
  (forall k, In k (map fst m) -> exists i, act i m k = true \/ act i m (k - 1) = true) /\
  (forall i y, klt (y + 1) m -> act i m y = false).

Lemma ev_ok_nil : ev_ok [].
Proof. split; [constructor|]. split; [constructor|]. split; [intros k []|reflexivity]. Qed.

Lemma ev_ok_insert low high id m : ev_ok m -> low < high ->
  (forall y, low <= y < high -> act id m y = false) -> ev_ok (ev_insert low high id m).
Proof.
  intros [H1 [H2 [H3 H4]]] Hlh Hf.
  split; [|split; [|split]].
  - unfold ev_insert. apply ev_insert_pos_sorted. apply ev_insert_pos_sorted. exact H1.
  - unfold ev_insert. apply ev_insert_pos_sets. apply ev_insert_pos_sets. exact H2.
  - assert (Hmono : forall i y, act i m y = true -> act i (ev_insert low high id m) y = true).
    { intros i y Ha. rewrite ev_insert_act by lia.
      destruct (Z.eqb_spec i id); cbn [andb]; rewrite ?xorb_false_l; [|exact Ha]. subst i.
      destruct (Z.leb_spec low y), (Z.ltb_spec y high); cbn [andb]; rewrite ?xorb_false_l; try exact Ha.
      rewrite Hf in Ha by lia. discriminate Ha. }
    assert (Hnew : forall y, low <= y < high -> act id (ev_insert low high id m) y = true).
    { intros y Hy. rewrite ev_insert_act by lia. rewrite Hf by lia. rewrite Z.eqb_refl.
      destruct (Z.leb_spec low y), (Z.ltb_spec y high); (reflexivity || lia). }
    intros k Hk. unfold ev_insert in Hk. apply ev_insert_pos_keys in Hk. rewrite ev_insert_pos_keys in Hk.
    destruct Hk as [->|[->|Hk]].
    + exists id. right. apply Hnew. lia.
    + exists id. left. apply Hnew. lia.
    + destruct (H3 k Hk) as [i [Hi|Hi]]; exists i; [left|right]; apply Hmono; exact Hi.
  - intros i y Hy. rewrite ev_insert_act by lia.
    assert (Hk : forall j, j = high \/ j = low \/ In j (map fst m) -> j < y + 1).
    { intros j Hj. apply (proj1 (keys_klt _ _) Hy). unfold ev_insert. rewrite !ev_insert_pos_keys. exact Hj. }
    rewrite H4 by (apply keys_klt; intros j Hj; apply Hk; right; right; exact Hj).
    specialize (Hk high (or_introl eq_refl)).
    destruct (Z.ltb_spec y high); [lia|]. rewrite !andb_false_r. reflexivity.
Qed.

(* ---------- the iterator ---------- *)
(* the non-empty intervals the iterator delivers *)
Fixpoint gaps (ids : idset) (lo : Z) (rest : event) : list (Z * Z * idset) :=
  match rest with
  | [] => []
  | (k, s) :: r => (match ids with [] => [] | _ => [(lo, k, ids)] end) ++ gaps (toggles s ids) k r
  end.
(* never two empty gaps in succession, and none at the end *)
Fixpoint ok_gaps (ids : idset) (rest : event) : Prop :=
  match rest with
  | [] => True
  | (_, s) :: r => (ids = [] -> toggles s ids <> [] /\ r <> []) /\ ok_gaps (toggles s ids) r
  end.

Fixpoint touch_all (l : list (Z * Z * idset)) (lead : bool) (s : bo_state idset) (g : graph)
  : option (bo_state idset * graph) :=
  match l with
  | [] => Some (s, g)
  | (lo, hi, ids) :: l' =>
      do '(s1, g1) <- touch_interval s lo hi ids lead g; touch_all l' lead s1 g1
  end.

(* an iterator about to deliver the gap that starts at lo *)
Definition pending (e : ev_iter) (ids : idset) (lo : Z) (rest : event) : Prop :=
  ei_rest e = rest /\ ei_ids e = ids /\
  if ei_inc e then ei_high e = lo
  else ei_low e = lo /\ exists k s r, rest = (k, s) :: r /\ ei_high e = k.

Lemma settle_pending e ids lo k s r : pending e ids lo ((k, s) :: r) ->
  ei_settle e = Some (mk_ei ((k, s) :: r) lo k ids false).
Proof.
  destruct e as [er el eh ei inc]. unfold pending, ei_settle. cbn [ei_rest ei_ids ei_inc ei_high ei_low].
  intros [-> [-> H]]. destruct inc.
  - rewrite H. reflexivity.
  - destruct H as [-> [k0 [s0 [r0 [E ->]]]]]. assert (k0 = k) by congruence. subst. reflexivity.
Qed.

Lemma event_loop_spec lead : forall n rest ids lo e s g fuel, (length rest <= n)%nat -> (length rest < fuel)%nat ->
  pending e ids lo rest -> ok_gaps ids rest ->
  event_loop fuel e lead s g = touch_all (gaps ids lo rest) lead s g.
Proof.
  induction n as [|n IH]; intros rest ids lo e s g fuel Hn Hf Hp Hg.
  - destruct rest as [|p rest]; [|cbn [length] in Hn; lia]. destruct fuel as [|fuel]; [lia|].
    cbn [event_loop]. destruct Hp as [-> _]. reflexivity.
  - destruct fuel as [|fuel]; [lia|].
    destruct rest as [|[k s0] r].
    { cbn [event_loop]. destruct Hp as [-> _]. reflexivity. }
    cbn [length] in Hn, Hf. cbn [event_loop]. destruct Hp as [Er Hp']. rewrite Er.
    assert (Hp : pending e ids lo ((k, s0) :: r)) by (split; assumption).
    cbn [ok_gaps] in Hg. destruct Hg as [Hg0 Hg].
    unfold ei_deref at 1. rewrite (settle_pending _ _ _ _ _ _ Hp). cbn [bind ei_ids].
    destruct ids as [|i ids].
    + destruct (Hg0 eq_refl) as [Ht Hr]. clear Hg0.
      unfold ei_incr. cbn [ei_rest ei_low ei_high ei_ids bind].
      change (fold_left (fun ids i => set_toggle i ids) s0 []) with (toggles s0 []).
      destruct r as [|[k1 s1] r]; [contradiction Hr; reflexivity|].
      unfold ei_settle at 1. cbn [ei_inc ei_rest ei_high ei_ids bind].
      unfold ei_deref, ei_settle at 1. cbn [ei_inc bind ei_ids].
      destruct (toggles s0 []) as [|i ids] eqn:Et; [contradiction Ht; reflexivity|].
      cbn [bind]. unfold ei_settle. cbn [ei_inc bind ei_low ei_high ei_ids gaps app]. rewrite Et.
      cbn [gaps app touch_all].
      destruct (touch_interval s k k1 (i :: ids) lead g) as [[s1' g1]|]; [|reflexivity]. cbn [bind].
      unfold ei_incr. cbn [ei_rest ei_low ei_high ei_ids bind].
      cbn [ok_gaps] in Hg. destruct Hg as [_ Hg].
      apply IH; [cbn [length] in Hn; lia|cbn [length] in Hf; lia| |exact Hg].
      split; [reflexivity|]. split; reflexivity.
    + clear Hg0. cbn [bind]. unfold ei_settle at 1. cbn [ei_inc bind].
      unfold ei_deref, ei_settle. cbn [ei_inc bind ei_ids ei_low ei_high gaps app touch_all].
      destruct (touch_interval s lo k (i :: ids) lead g) as [[s1' g1]|]; [|reflexivity]. cbn [bind].
      unfold ei_incr. cbn [ei_rest ei_low ei_high ei_ids bind].
      apply IH; [lia|lia| |exact Hg].
      split; [reflexivity|]. split; reflexivity.
Qed.

(* the delivered intervals, from p on, describe F *)
Fixpoint chain_ok (p : Z) (G : list (Z * Z * idset)) (F : Z -> Z -> bool) : Prop :=
  match G with
  | [] => forall y i, p <= y -> F i y = false
  | (lo, hi, ids) :: G' =>
      p <= lo /\ lo < hi /\ ids <> [] /\ NoDup ids /\
      (forall y i, p <= y < lo -> F i y = false) /\
      (forall y i, lo <= y < hi -> (In i ids <-> F i y = true)) /\ chain_ok hi G' F
  end.
Lemma chain_ok_extend p q G F : p <= q -> (forall y i, p <= y < q -> F i y = false) ->
  chain_ok q G F -> chain_ok p G F.
Proof.
  intros Hpq Hf. destruct G as [|[[lo hi] ids] G]; cbn [chain_ok].
  - intros H y i Hy. destruct (Z.ltb_spec y q); [apply Hf; lia|apply H; lia].
  - intros [H1 [H2 [H3 [H4 [H5 [H6 H7]]]]]]. conj; [lia|]. intros y i Hy.
    destruct (Z.ltb_spec y q); [apply Hf; lia|apply H5; lia].
Qed.

Lemma gaps_chain rest : forall ids lo F, ksorted rest -> kge (lo + 1) rest -> ev_sets rest -> sset ids ->
  (forall i y, lo <= y -> F i y = xorb (set_mem i ids) (act i rest y)) ->
  (forall i y, lo <= y -> klt (y + 1) rest -> F i y = false) ->
  (forall k, In k (map fst rest) -> exists i, F i k = true \/ F i (k - 1) = true) ->
  chain_ok lo (gaps ids lo rest) F /\ ok_gaps ids rest.
Proof.
  induction rest as [|[k s] r IH]; intros ids lo F Hs Hk He Hi HF Hcl Hcov; cbn [gaps chain_ok ok_gaps].
  - split; [|exact I]. intros y i Hy. apply Hcl; [exact Hy|constructor].
  - apply ksorted_cons in Hs. destruct Hs as [Hs Hkr]. apply kge_cons in Hk. destruct Hk as [Hk _].
    inversion He as [|x l He0 He']; subst. cbn [snd] in He0.
    assert (Hmid : forall i y, lo <= y < k -> F i y = set_mem i ids).
    { intros i y Hy. rewrite HF by lia. rewrite act_below; [destruct (set_mem i ids); reflexivity|].
      apply kge_cons. split; [lia|]. eapply kge_weaken; [|exact Hkr]. lia. }
    assert (HF' : forall i y, k <= y -> F i y = xorb (set_mem i (toggles s ids)) (act i r y)).
    { intros i y Hy. rewrite HF by lia. cbn [act]. rewrite toggles_mem by (apply sset_NoDup; exact He0).
      destruct (Z.leb_spec k y); [|lia]. cbn [andb]. destruct (set_mem i ids), (set_mem i s), (act i r y); reflexivity. }
    destruct (IH (toggles s ids) k F) as [HC HO].
    + exact Hs.
    + exact Hkr.
    + exact He'.
    + apply toggles_sset. exact Hi.
    + exact HF'.
    + intros i y Hy Hlt. apply Hcl; [lia|]. apply klt_cons. split; [lia|exact Hlt].
    + intros k0 Hk0. apply Hcov. right. exact Hk0.
    + destruct ids as [|i0 ids].
      * cbn [app]. split.
        -- apply (chain_ok_extend lo k); [lia| |exact HC]. intros y i Hy. rewrite Hmid by lia. reflexivity.
        -- split; [|exact HO]. intros _.
           destruct (Hcov k (or_introl eq_refl)) as [i [Hx|Hx]].
           2:{ rewrite Hmid in Hx by lia. discriminate Hx. }
           pose proof Hx as Hx0. rewrite HF' in Hx by lia. rewrite act_below in Hx by exact Hkr.
           split.
           ++ intros E. rewrite E in Hx. discriminate Hx.
           ++ intros E. subst r. rewrite Hcl in Hx0; [discriminate Hx0|lia|]. apply klt_cons. split; [lia|constructor].
      * split; [|split; [discriminate|exact HO]].
        cbn [app chain_ok]. conj; try lia.
        -- discriminate.
        -- apply sset_NoDup. exact Hi.
        -- intros y i Hy. rewrite Hmid by lia. rewrite set_mem_In. reflexivity.
Qed.

(* ---------- all intervals of an event ---------- *)
Definition near (a b : Z) : Prop := -1 <= a - b <= 1.

Lemma touch_all_spec (lead : bool) F G : forall p s g,
  chain_ok p G F -> scan_ok id_ops s p ->
  (forall i y, F i y = true -> gvalid g i) -> (forall y, Forall (gvalid g) (tval s y)) ->
  (forall y c, p <= y -> F c y = true -> if lead then ~ In c (tval s y) else In c (tval s y)) ->
  exists s' g' q, touch_all G lead s g = Some (s', g') /\ scan_ok id_ops s' q /\
    (forall y i, In i (tval s' y) <->
       if (p <=? y) && F i y then lead = true else In i (tval s y)) /\
    adds g g' (fun a b => lead = true /\ exists c j y t, p <= y /\ F c y = true /\ near y t /\
       (In j (tval s t) \/ (p <= t /\ F j t = true)) /\ pr a b c j).
Proof.
  induction G as [|[[lo hi] ids] G IH]; intros p s g HC Hs HF Hv Hd; cbn [touch_all].
  - exists s, g, p. split; [reflexivity|]. split; [exact Hs|]. cbn [chain_ok] in HC. split.
    + intros y i. destruct (Z.leb_spec p y); cbn [andb]; [|reflexivity]. rewrite HC by lia. reflexivity.
    + apply adds_none. intros a b [_ [c [j [y [t [Hy [Hc _]]]]]]]. rewrite HC in Hc by lia. discriminate Hc.
  - cbn [chain_ok] in HC. destruct HC as [H1 [H2 [H3 [H4 [H5 [H6 H7]]]]]].
    assert (Hids : Forall (gvalid g) ids).
    { apply Forall_forall. intros i Hi. apply (HF i lo). apply H6; [lia|exact Hi]. }
    destruct (touch_interval_spec s lo hi ids lead g) as [s1 [g1 [E1 [S1 [V1 A1]]]]]; try assumption.
    { apply (scan_ok_mono _ _ p); [lia|exact Hs]. }
    { intros y c Hy Hc. apply Hd; [lia|]. apply H6; assumption. }
    rewrite E1. cbn [bind].
    assert (Hlead : lead = true -> forall i y, In i (tval s y) -> In i (tval s1 y)).
    { intros El i y Hi. apply V1. rewrite El. destruct ((lo <=? y) && (y <? hi)); [left; exact Hi|exact Hi]. }
    destruct (IH hi s1 g1) as [s' [g' [q [E' [S' [V' A']]]]]].
    + exact H7.
    + exact S1.
    + intros i y Hi. apply (adds_valid _ _ _ _ A1). apply (HF i y). exact Hi.
    + intros y. apply Forall_forall. intros i Hi. apply (adds_valid _ _ _ _ A1).
      apply V1 in Hi. specialize (Hv y). rewrite Forall_forall in Hv. rewrite Forall_forall in Hids.
      destruct ((lo <=? y) && (y <? hi)); [|apply Hv; exact Hi].
      destruct lead; [destruct Hi as [Hi|Hi]; [apply Hv; exact Hi|apply Hids; exact Hi]|apply Hv; apply Hi].
    + intros y c Hy Hc. specialize (Hd y c ltac:(lia) Hc). specialize (V1 y c).
      destruct (Z.leb_spec lo y), (Z.ltb_spec y hi); cbn [andb] in V1; try lia; destruct lead; tauto.
    + exists s', g', q. split; [exact E'|]. split; [exact S'|]. split.
      * intros y i. rewrite (V' y i). specialize (V1 y i).
        destruct (Z.leb_spec hi y).
        -- destruct (Z.leb_spec p y); [|lia]. cbn [andb]. destruct (F i y); [reflexivity|].
           rewrite V1. destruct (Z.leb_spec lo y), (Z.ltb_spec y hi); cbn [andb]; try lia; reflexivity.
        -- cbn [andb]. rewrite V1. clear V1. destruct (Z.leb_spec lo y) as [Hl|Hl], (Z.ltb_spec y hi); cbn [andb]; try lia.
           ++ destruct (Z.leb_spec p y); [|lia]. cbn [andb]. pose proof (H6 y i ltac:(lia)) as H6'.
              specialize (Hd y i ltac:(lia)). destruct lead, (F i y).
              ** split; [intros _; reflexivity|]. intros _. right. apply H6'. reflexivity.
              ** split; [|intros Hx; left; exact Hx]. intros [Hx|Hx]; [exact Hx|]. apply H6' in Hx. discriminate Hx.
              ** split; [|discriminate]. intros [_ Hx]. contradiction Hx. apply H6'. reflexivity.
              ** split; [intros [Hx _]; exact Hx|]. intros Hx. split; [exact Hx|]. intros Hx'. apply H6' in Hx'. discriminate Hx'.
           ++ destruct (Z.leb_spec p y); cbn [andb]; [|reflexivity]. rewrite H5 by lia. reflexivity.
      * eapply adds_trans; [exact A1|exact A'|]. intros a b. cbn beta. split.
        -- intros [El [c [j [y [t [Hy [Hc [Hn [Hj Hp]]]]]]]]].
           destruct (Z.ltb_spec y lo) as [Hyl|Hyl]; [rewrite H5 in Hc by lia; discriminate Hc|].
           destruct (Z.ltb_spec y hi) as [Hyh|Hyh].
           ++ pose proof (proj2 (H6 y c ltac:(lia)) Hc) as Hcin.
              destruct Hj as [Hj|[Ht Hj]].
              ** left. split; [exact El|]. exists c, j. conj. right. exists t. split; [unfold near in Hn; lia|exact Hj].
              ** destruct (Z.ltb_spec t lo) as [Htl|Htl]; [rewrite H5 in Hj by lia; discriminate Hj|].
                 destruct (Z.ltb_spec t hi) as [Hth|Hth].
                 --- left. split; [exact El|]. exists c, j. conj. left. apply (H6 t j); [lia|exact Hj].
                 --- right. split; [exact El|]. exists j, c, t, y. conj; try lia.
                     +++ unfold near in *. lia.
                     +++ left. apply V1. rewrite El. destruct (Z.leb_spec lo y), (Z.ltb_spec y hi); try lia.
                         right. exact Hcin.
                     +++ apply pr_sym. exact Hp.
           ++ right. split; [exact El|]. exists c, j, y, t. conj; try lia.
              destruct Hj as [Hj|[Ht Hj]]; [left; apply Hlead; assumption|].
              destruct (Z.ltb_spec t lo) as [Htl|Htl]; [rewrite H5 in Hj by lia; discriminate Hj|].
              destruct (Z.ltb_spec t hi) as [Hth|Hth]; [|right; split; [lia|exact Hj]].
              left. apply V1. rewrite El. destruct (Z.leb_spec lo t), (Z.ltb_spec t hi); try lia.
              right. apply (H6 t j); [lia|exact Hj].
        -- intros [[El [c [j [Hc [Hj Hp]]]]]|[El [c [j [y [t [Hy [Hc [Hn [Hj Hp]]]]]]]]]].
           ++ split; [exact El|]. destruct Hj as [Hj|[t [Ht Hj]]].
              ** exists c, j, lo, lo. conj; try lia; [apply H6; [lia|exact Hc]|unfold near; lia|].
                 right. split; [lia|]. apply H6; [lia|exact Hj].
              ** exists c, j, (Z.min (Z.max t lo) (hi - 1)), t. conj; try (unfold near; lia); [apply H6; [lia|exact Hc]|].
                 left. exact Hj.
           ++ split; [exact El|]. exists c, j, y, t. conj; try lia. destruct Hj as [Hj|[Ht Hj]]; [|right; split; [lia|exact Hj]].
              apply V1 in Hj. rewrite El in Hj.
              destruct (Z.leb_spec lo t), (Z.ltb_spec t hi); cbn [andb] in Hj; try (left; exact Hj).
              destruct Hj as [Hj|Hj]; [left; exact Hj|]. right. split; [lia|]. apply H6; [lia|exact Hj].
Qed.

Theorem processEvent_spec m (lead : bool) s g :
  ev_ok m -> (forall p, scan_ok id_ops s p) ->
  (forall i y, act i m y = true -> gvalid g i) -> (forall y, Forall (gvalid g) (tval s y)) ->
  (forall y c, act c m y = true -> if lead then ~ In c (tval s y) else In c (tval s y)) ->
  exists s' g' q, processEvent m lead s g = Some (s', g') /\ scan_ok id_ops s' q /\
    (forall y i, In i (tval s' y) <-> if act i m y then lead = true else In i (tval s y)) /\
    adds g g' (fun a b => lead = true /\ exists c j y t, act c m y = true /\ near y t /\
       (In j (tval s t) \/ act j m t = true) /\ pr a b c j).
Proof.
  intros [H1 [H2 [H3 H4]]] Hs HF Hv Hd. unfold processEvent.
  destruct m as [|[pos s0] r].
  - cbn [ev_begin bind length event_loop ei_rest]. exists s, g, 0. split; [reflexivity|]. split; [apply Hs|].
    split; [reflexivity|]. apply adds_none. intros a b [_ [c [j [y [t [Hc _]]]]]]. discriminate Hc.
  - apply ksorted_cons in H1. destruct H1 as [H1 Hk]. inversion H2 as [|x l He0 He']; subst. cbn [snd] in He0.
    assert (Hlow : forall i y, y < pos -> act i ((pos, s0) :: r) y = false).
    { intros i y Hy. apply act_below. apply kge_cons. split; [lia|]. eapply kge_weaken; [|exact Hk]. lia. }
    assert (Hhd : forall i y, pos <= y -> act i ((pos, s0) :: r) y = xorb (set_mem i s0) (act i r y)).
    { intros i y Hy. cbn [act]. destruct (Z.leb_spec pos y); [|lia]. reflexivity. }
    destruct (gaps_chain r s0 pos (fun i y => act i ((pos, s0) :: r) y)) as [HC HO].
    + exact H1.
    + exact Hk.
    + exact He'.
    + exact He0.
    + exact Hhd.
    + intros i y Hy Hlt. apply H4. apply klt_cons. split; [lia|exact Hlt].
    + intros k Hk0. apply H3. right. exact Hk0.
    + destruct r as [|[k1 s1] r].
      { exfalso. destruct (H3 pos (or_introl eq_refl)) as [i [Hx|Hx]].
        - rewrite H4 in Hx; [discriminate Hx|]. apply klt_cons. split; [lia|constructor].
        - rewrite Hlow in Hx by lia. discriminate Hx. }
      cbn [ev_begin bind].
      rewrite (event_loop_spec lead (length ((k1, s1) :: r)) ((k1, s1) :: r) s0 pos); [| lia | cbn [length]; lia | | exact HO].
      2:{ split; [reflexivity|]. split; [reflexivity|]. cbn [ei_inc ei_low ei_high]. split; [reflexivity|].
          exists k1, s1, r. split; reflexivity. }
      destruct (touch_all_spec lead (fun i y => act i ((pos, s0) :: (k1, s1) :: r) y) _ pos s g HC (Hs pos) HF Hv) as
        [s' [g' [q [E' [S' [V' A']]]]]].
      { intros y c _ Hc. apply Hd. exact Hc. }
      exists s', g', q. split; [exact E'|]. split; [exact S'|]. split.
      * intros y i. rewrite V'. destruct (Z.leb_spec pos y); cbn [andb]; [reflexivity|]. rewrite Hlow by lia. reflexivity.
      * eapply adds_iff; [|exact A']. intros a b. cbn beta. split.
        -- intros [El [c [j [y [t [Hy [Hc [Hn [Hj Hp]]]]]]]]]. split; [exact El|]. exists c, j, y, t. conj. tauto.
        -- intros [El [c [j [y [t [Hc [Hn [Hj Hp]]]]]]]]. split; [exact El|]. exists c, j, y, t. conj.
           ++ destruct (Z.leb_spec pos y); [lia|]. rewrite Hlow in Hc by lia. discriminate Hc.
           ++ destruct Hj as [Hj|Hj]; [left; exact Hj|]. right. split; [|exact Hj].
              destruct (Z.leb_spec pos t); [lia|]. rewrite Hlow in Hj by lia. discriminate Hj.
Qed.
