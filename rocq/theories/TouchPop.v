(* populateTouchSetData: the events of a vertex list. *)
From Verif Require Import Base Scan90Spec BoolOpModel VertexLemmas ScanMap ScanProcess ScanStep Set90Spec Set90Model
  Set90Lemmas TouchSpec TouchModel TouchStep TouchEvent.

Fixpoint evat (m : smap event) (x : Z) : event :=
  match m with
  | [] => []
  | (k, e) :: m' => if k =? x then e else evat m' x
  end.
Definition on (m : smap event) (i x y : Z) : bool := act i (evat m x) y.

Definition tok (m : smap event) : Prop :=
  ksorted m /\ Forall (fun p => ev_ok (snd p) /\ exists i y, act i (snd p) y = true) m.

Lemma evat_absent (m : smap event) x : ~ In x (map fst m) -> evat m x = [].
Proof.
  induction m as [|[k e] m IH]; intros H; [reflexivity|]. cbn [evat map fst In] in *.
  destruct (Z.eqb_spec k x); [contradiction H; left; assumption|]. apply IH. tauto.
Qed.
Lemma keys_kge' k (m : smap event) : kge k m <-> forall j, In j (map fst m) -> k <= j.
Proof.
  unfold kge. rewrite Forall_forall. split.
  - intros H j Hj. apply in_map_iff in Hj. destruct Hj as [p [<- Hp]]. apply H. exact Hp.
  - intros H p Hp. apply H. apply in_map. exact Hp.
Qed.
Lemma evat_kge (m : smap event) x : kge (x + 1) m -> evat m x = [].
Proof. intros H. apply evat_absent. intros Hi. apply (proj1 (keys_kge' _ _) H) in Hi. lia. Qed.
Lemma on_key m i x y : on m i x y = true -> In x (map fst m).
Proof.
  intros H. destruct (in_dec Z.eq_dec x (map fst m)) as [Hi|Hi]; [exact Hi|].
  unfold on in H. rewrite (evat_absent m x Hi) in H. discriminate H.
Qed.
Lemma tok_evat m x : tok m -> ev_ok (evat m x).
Proof.
  intros [_ H]. induction m as [|[k e] m IH]; [apply ev_ok_nil|]. inversion H as [|p l H1 H2]; subst.
  cbn [evat]. destruct (k =? x); [apply H1|apply IH; exact H2].
Qed.
Lemma tok_key m x : tok m -> In x (map fst m) -> exists i y, on m i x y = true.
Proof.
  intros [_ H]. unfold on. induction m as [|[k e] m IH]; intros Hi; [destruct Hi|]. inversion H as [|p l H1 H2]; subst.
  cbn [evat map fst In] in *. destruct (Z.eqb_spec k x); [apply H1|]. apply IH; [exact H2|]. tauto.
Qed.

Lemma at_insert_evat x lo hi id m x' : ksorted m ->
  evat (at_insert x lo hi id m) x' = if x' =? x then ev_insert lo hi id (evat m x) else evat m x'.
Proof.
  induction m as [|[k e] m IH]; intros Hs; cbn [at_insert evat].
  - rewrite (Z.eqb_sym x' x). reflexivity.
  - apply ksorted_cons in Hs. destruct Hs as [Hs Hk].
    destruct (Z.ltb_spec k x); cbn [evat].
    + rewrite IH by exact Hs. destruct (Z.eqb_spec k x), (Z.eqb_spec k x'), (Z.eqb_spec x' x); try lia; reflexivity.
    + destruct (Z.eqb_spec k x); cbn [evat].
      * subst k. rewrite (Z.eqb_sym x' x). destruct (x =? x'); reflexivity.
      * rewrite (Z.eqb_sym x' x). destruct (Z.eqb_spec x x'); [|reflexivity].
        rewrite evat_kge; [reflexivity|]. eapply kge_weaken; [|exact Hk]. lia.
Qed.
Lemma at_insert_tok x lo hi id m : tok m -> lo < hi ->
  (forall y, lo <= y < hi -> on m id x y = false) -> tok (at_insert x lo hi id m).
Proof.
  intros [Hs Hf] Hlh Ha.
  assert (Hkeys : forall k, In k (map fst (at_insert x lo hi id m)) -> k = x \/ In k (map fst m)).
  { clear. induction m as [|[k0 e] m IH]; cbn [at_insert map fst In]; intros k.
    - intuition congruence.
    - destruct (k0 <? x); cbn [map fst In]; [intros [H|H]; [tauto|apply IH in H; tauto]|].
      destruct (Z.eqb_spec k0 x); cbn [map fst In]; intuition congruence. }
  assert (Hins : forall e, ev_ok e -> (forall y, lo <= y < hi -> act id e y = false) ->
            ev_ok (ev_insert lo hi id e) /\ exists i y, act i (ev_insert lo hi id e) y = true).
  { intros e He Hf'. split; [apply ev_ok_insert; assumption|]. exists id, lo. rewrite ev_insert_act by lia.
    rewrite Hf' by lia. rewrite Z.eqb_refl. destruct (Z.leb_spec lo lo), (Z.ltb_spec lo hi); (reflexivity || lia). }
  split.
  - clear Hf Ha Hins. revert Hkeys Hs. induction m as [|[k e] m IH]; intros Hkeys Hs; cbn [at_insert].
    + apply ksorted_cons. split; constructor.
    + pose proof Hs as Hs0. apply ksorted_cons in Hs. destruct Hs as [Hs Hk]. destruct (Z.ltb_spec k x).
      * apply ksorted_cons. split.
        -- apply IH; [|exact Hs]. intros k1 Hk1.
           assert (Hc : In k1 (map fst (at_insert x lo hi id ((k, e) :: m)))).
           { cbn [at_insert]. destruct (Z.ltb_spec k x); [|lia]. right. exact Hk1. }
           apply Hkeys in Hc. cbn [map fst In] in Hc. destruct Hc as [Hc|[Hc|Hc]]; [tauto| |tauto].
           subst k1. clear - Hk1 Hk H. exfalso.
           assert (G : forall m, kge (k + 1) m -> In k (map fst (at_insert x lo hi id m)) -> False).
           { clear Hk1 Hk. intros m0. induction m0 as [|[k2 e2] m0 IH]; intros Hk Hi; cbn [at_insert] in Hi.
             - cbn [map fst In] in Hi. lia.
             - apply kge_cons in Hk. destruct Hk as [Hk1 Hk2]. destruct (k2 <? x); cbn [map fst In] in Hi.
               + destruct Hi as [Hi|Hi]; [lia|]. apply IH; assumption.
               + assert (Hm : In k (map fst m0) -> False).
                 { intros Hm. apply (proj1 (keys_kge' _ _) Hk2) in Hm. lia. }
                 destruct (k2 =? x); cbn [map fst In] in Hi.
                 * destruct Hi as [Hi|Hi]; [lia|tauto].
                 * destruct Hi as [Hi|[Hi|Hi]]; [lia|lia|tauto]. }
           apply (G m Hk Hk1).
        -- apply keys_kge'. intros j Hj.
           assert (G : forall m, kge (k + 1) m -> In j (map fst (at_insert x lo hi id m)) -> k + 1 <= j).
           { clear Hj Hkeys IH Hk Hs Hs0. intros m0. induction m0 as [|[k2 e2] m0 IH]; intros Hk Hi; cbn [at_insert] in Hi.
             - cbn [map fst In] in Hi. lia.
             - apply kge_cons in Hk. destruct Hk as [Hk1 Hk2]. destruct (k2 <? x); cbn [map fst In] in Hi.
               + destruct Hi as [Hi|Hi]; [lia|]. apply IH; assumption.
               + assert (Hm : In j (map fst m0) -> k + 1 <= j).
                 { intros Hm. apply (proj1 (keys_kge' _ _) Hk2). exact Hm. }
                 destruct (k2 =? x); cbn [map fst In] in Hi.
                 * destruct Hi as [Hi|Hi]; [lia|tauto].
                 * destruct Hi as [Hi|[Hi|Hi]]; [lia|lia|tauto]. }
           apply (G m Hk Hj).
      * destruct (Z.eqb_spec k x); [apply ksorted_cons; split; assumption|].
        apply ksorted_cons. split; [exact Hs0|]. apply kge_cons. split; [lia|]. eapply kge_weaken; [|exact Hk]. lia.
  - clear Hkeys. unfold on in Ha. revert Hs Hf Ha. induction m as [|[k e] m IH]; intros Hs Hf Ha; cbn [at_insert].
    + constructor; [|constructor]. cbn [snd]. apply Hins; [apply ev_ok_nil|reflexivity].
    + apply ksorted_cons in Hs. destruct Hs as [Hs Hk]. pose proof Hf as Hf0. inversion Hf as [|p l F1 F2]; subst. cbn [evat] in Ha.
      destruct (Z.ltb_spec k x).
      * constructor; [exact F1|]. apply IH; [exact Hs|exact F2|]. intros y Hy. specialize (Ha y Hy).
        destruct (Z.eqb_spec k x); [lia|exact Ha].
      * destruct (Z.eqb_spec k x).
        -- constructor; [|exact F2]. cbn [snd] in *. apply Hins; [apply F1|exact Ha].
        -- constructor; [|exact Hf0]. cbn [snd]. apply Hins; [apply ev_ok_nil|reflexivity].
Qed.
Lemma at_insert_on x lo hi id m i x' y : ksorted m -> lo < hi ->
  on (at_insert x lo hi id m) i x' y =
    xorb ((i =? id) && ((x' =? x) && ((lo <=? y) && (y <? hi)))) (on m i x' y).
Proof.
  intros Hs Hlh. unfold on. rewrite at_insert_evat by exact Hs. destruct (Z.eqb_spec x' x).
  - subst x'. rewrite ev_insert_act by lia. reflexivity.
  - cbn [andb]. rewrite andb_false_r, xorb_false_l. reflexivity.
Qed.

(* ---------- columns ---------- *)
Fixpoint dcol (V : list vertex) (x y : Z) : Z :=
  match V with
  | [] => 0
  | v :: V' => (if (vx v =? x) && (vy v <=? y) then vc v else 0) + dcol V' x y
  end.
Lemma dcol_cnt V x y : dcol V x y = cnt V x y - cnt V (x - 1) y.
Proof.
  induction V as [|v V IH]; [reflexivity|]. cbn [dcol cnt]. rewrite IH.
  destruct (Z.eqb_spec (vx v) x), (Z.leb_spec (vx v) x), (Z.leb_spec (vx v) (x - 1)), (vy v <=? y); cbn [andb]; lia.
Qed.
Lemma dcol_after V x y : Forall (fun v => x < vx v \/ (vx v = x /\ y < vy v)) V -> dcol V x y = 0.
Proof.
  induction V as [|v V IH]; intros H; [reflexivity|]. inversion H as [|w l H1 H2]; subst. cbn [dcol].
  rewrite IH by exact H2. destruct (Z.eqb_spec (vx v) x), (Z.leb_spec (vy v) y); cbn [andb]; lia.
Qed.
Lemma col_total_after V x : Forall (fun v => x < vx v) V -> col_total V x = 0.
Proof.
  induction V as [|v V IH]; intros H; [reflexivity|]. inversion H as [|w l H1 H2]; subst. cbn [col_total].
  rewrite IH by exact H2. destruct (Z.eqb_spec (vx v) x); lia.
Qed.

Definition before (x y X Y : Z) : bool := (x <? X) || ((x =? X) && (y <? Y)).
(* positive counts go to the leading edges, negative ones to the trailing edges *)
Definition side (lead : bool) (d : tsd) : smap event := if lead then fst d else snd d.
Definition sgn (lead : bool) (t : Z) : bool := if lead then t >? 0 else t <? 0.

Lemma pop_fold id W : forall X Y C d,
  tok (fst d) -> tok (snd d) ->
  StronglySorted pos_le W -> Forall (fun v => X < vx v \/ (vx v = X /\ Y <= vy v)) W ->
  (forall x, (if x =? X then C else 0) + col_total W x = 0) ->
  (forall lead x y, before x y X Y = false -> on (side lead d) id x y = false) ->
  let d' := pp_data (fold_left (pop_step id) W (mk_pop X Y C d)) in
  tok (fst d') /\ tok (snd d') /\
  forall lead i x y, on (side lead d') i x y =
    if (i =? id) && negb (before x y X Y)
    then sgn lead ((if (x =? X) && (Y <=? y) then C else 0) + dcol W x y)
    else on (side lead d) i x y.
Proof.
  induction W as [|v W IH]; intros X Y C d T1 T2 Hs Hafter Htot Hoff; cbn [fold_left pp_data].
  - split; [exact T1|]. split; [exact T2|]. intros lead i x y.
    destruct (Z.eqb_spec i id); cbn [andb]; [|reflexivity]. subst i.
    destruct (before x y X Y) eqn:B; cbn [negb]; [reflexivity|]. rewrite Hoff by exact B. cbn [dcol].
    specialize (Htot x). cbn [col_total] in Htot.
    destruct (x =? X); cbn [andb]; [|destruct lead; reflexivity].
    replace C with 0 by lia. destruct (Y <=? y), lead; reflexivity.
  - inversion Hs as [|v0 l Hs1 Hs2]; subst. inversion Hafter as [|v0 l Ha1 Ha2]; subst.
    assert (Hnext : Forall (fun w => vx v < vx w \/ (vx w = vx v /\ vy v <= vy w)) W).
    { eapply Forall_impl; [|exact Hs2]. intros w Hw. unfold pos_le in Hw. lia. }
    set (st1 := pop_step id (mk_pop X Y C d) v).
    assert (Est : st1 = pop_step id (mk_pop X Y C d) v) by reflexivity. clearbody st1.
    unfold pop_step in Est. cbn [pp_pos pp_y pp_count pp_data] in Est.
    destruct (Z.eqb_spec (vx v) X) as [Ex|Ex]; cbn [negb] in Est.
    + (* same column *)
      assert (Hy : Y <= vy v) by lia.
      assert (Htot' : forall x, (if x =? X then C + vc v else 0) + col_total W x = 0).
      { intros x. specialize (Htot x). cbn [col_total] in Htot. rewrite Ex in Htot.
        rewrite (Z.eqb_sym x X) in *. destruct (X =? x); lia. }
      rewrite Ex in Hnext.
      set (d1 := if negb (C =? 0) && negb (vy v =? Y)
                 then if C >? 0 then (at_insert (vx v) Y (vy v) id (fst d), snd d)
                      else (fst d, at_insert (vx v) Y (vy v) id (snd d))
                 else d).
      assert (Est' : st1 = mk_pop X (vy v) (C + vc v) d1) by exact Est. clear Est. rewrite Est'. clear Est'.
      assert (D1 : tok (fst d1) /\ tok (snd d1) /\ forall lead i x y, on (side lead d1) i x y =
                xorb ((i =? id) && ((x =? X) && ((Y <=? y) && (y <? vy v))) && sgn lead C) (on (side lead d) i x y)).
      { unfold d1. rewrite Ex.
        destruct (Z.eqb_spec C 0) as [E0|E0]; cbn [negb andb].
        { subst C. split; [exact T1|]. split; [exact T2|]. intros lead i x y.
          replace (sgn lead 0) with false by (destruct lead; reflexivity). rewrite andb_false_r, xorb_false_l. reflexivity. }
        destruct (Z.eqb_spec (vy v) Y) as [Ey|Ey]; cbn [negb andb].
        { split; [exact T1|]. split; [exact T2|]. intros lead i x y. rewrite Ey.
          replace ((Y <=? y) && (y <? Y)) with false by (symmetry; destruct (Z.leb_spec Y y), (Z.ltb_spec y Y); (reflexivity || lia)).
          rewrite !andb_false_r, xorb_false_l. reflexivity. }
        assert (Hins : forall lead, forall y, Y <= y < vy v -> on (side lead d) id X y = false).
        { intros lead y Hy'. apply Hoff. unfold before. destruct (Z.ltb_spec X X), (Z.ltb_spec y Y); first [lia|rewrite andb_false_r; reflexivity]. }
        destruct (Z.gtb_spec C 0) as [Ec|Ec]; cbn [fst snd].
        - split; [|split; [exact T2|]].
          + apply at_insert_tok; [exact T1|lia|apply (Hins true)].
          + intros [|] i x y; cbn [side sgn fst snd].
            * rewrite at_insert_on by (apply T1 || lia). destruct (Z.gtb_spec C 0); [|lia]. rewrite andb_true_r. reflexivity.
            * destruct (Z.ltb_spec C 0); [lia|]. rewrite andb_false_r, xorb_false_l. reflexivity.
        - split; [exact T1|split].
          + apply at_insert_tok; [exact T2|lia|apply (Hins false)].
          + intros [|] i x y; cbn [side sgn fst snd].
            * destruct (Z.gtb_spec C 0); [lia|]. rewrite andb_false_r, xorb_false_l. reflexivity.
            * rewrite at_insert_on by (apply T2 || lia). destruct (Z.ltb_spec C 0); [|lia]. rewrite andb_true_r. reflexivity. }
      destruct D1 as [D1 [D2 D3]].
      destruct (IH X (vy v) (C + vc v) d1 D1 D2 Hs1 Hnext Htot') as [K1 [K2 K3]].
      { intros lead x y B. rewrite D3. rewrite Hoff.
        - unfold before in B. destruct (Z.eqb_spec x X); cbn [andb]; [|rewrite andb_false_r; reflexivity].
          destruct (Z.ltb_spec y (vy v)); [rewrite orb_true_r in B; discriminate B|]. rewrite !andb_false_r. reflexivity.
        - unfold before in *. destruct (Z.ltb_spec x X); [discriminate B|]. cbn [orb] in *.
          destruct (x =? X); [|reflexivity]. cbn [andb] in *. destruct (Z.ltb_spec y (vy v)); [discriminate B|].
          destruct (Z.ltb_spec y Y); [lia|reflexivity]. }
      split; [exact K1|]. split; [exact K2|]. intros lead i x y. rewrite K3, D3. cbn [dcol]. rewrite Ex.
      destruct (Z.eqb_spec i id) as [Ei|Ei]; cbn [andb]; [|rewrite xorb_false_l; reflexivity]. subst i.
      unfold before. rewrite (Z.eqb_sym X x).
      destruct (Z.ltb_spec x X) as [Hx|Hx], (Z.eqb_spec x X) as [Hx2|Hx2]; cbn [orb andb negb]; try lia; try (rewrite xorb_false_l; reflexivity); try reflexivity.
      subst x. rewrite (Z.leb_antisym y (vy v)), (Z.leb_antisym y Y).
      destruct (Z.ltb_spec y (vy v)) as [Hv|Hv], (Z.ltb_spec y Y) as [Hv'|Hv']; cbn [orb andb negb]; try lia.
      * rewrite Hoff.
        -- rewrite xorb_false_r. rewrite dcol_after; [rewrite !Z.add_0_r; reflexivity|].
           eapply Forall_impl; [|exact Hnext]. intros w Hw. cbn beta in Hw. lia.
        -- unfold before. destruct (Z.ltb_spec X X), (Z.ltb_spec y Y); first [lia|rewrite andb_false_r; reflexivity].
      * f_equal. lia.
    + (* a new column *)
      rewrite Est. clear Est. assert (Hx : X < vx v) by lia.
      assert (C0 : C = 0).
      { specialize (Htot X). rewrite Z.eqb_refl in Htot. rewrite col_total_after in Htot; [lia|].
        constructor; [lia|]. eapply Forall_impl; [|exact Hnext]. intros w Hw. cbn beta in Hw. lia. }
      subst C.
      destruct (IH (vx v) (vy v) (vc v) d T1 T2 Hs1 Hnext) as [K1 [K2 K3]].
      { intros x. specialize (Htot x). cbn [col_total] in Htot. rewrite (Z.eqb_sym x (vx v)). destruct (x =? X); lia. }
      { intros lead x y B. apply Hoff. unfold before in *.
        destruct (Z.ltb_spec x (vx v)); [discriminate B|]. destruct (Z.ltb_spec x X), (Z.eqb_spec x X); first [lia|reflexivity]. }
      split; [exact K1|]. split; [exact K2|]. intros lead i x y. rewrite K3. cbn [dcol].
      destruct (Z.eqb_spec i id) as [Ei|Ei]; cbn [andb]; [|reflexivity]. subst i.
      rewrite (Z.eqb_sym (vx v) x).
      replace (if (x =? X) && (Y <=? y) then 0 else 0) with 0 by (destruct ((x =? X) && (Y <=? y)); reflexivity).
      rewrite Z.add_0_l.
      destruct (before x y (vx v) (vy v)) eqn:B; cbn [negb].
      * destruct (before x y X Y) eqn:B'; cbn [negb]; [reflexivity|]. rewrite Hoff by exact B'.
        unfold before in B. rewrite dcol_after.
        -- destruct (Z.eqb_spec x (vx v)), (Z.leb_spec (vy v) y), (Z.ltb_spec x (vx v)), (Z.ltb_spec y (vy v)); try lia; try discriminate B; destruct lead; reflexivity.
        -- eapply Forall_impl; [|exact Hnext]. intros w Hw. cbn beta in Hw.
           destruct (Z.ltb_spec x (vx v)), (Z.eqb_spec x (vx v)), (Z.ltb_spec y (vy v)); cbn in B; try discriminate B; lia.
      * unfold before. destruct (Z.ltb_spec x X), (Z.eqb_spec x X); cbn [orb andb negb]; try reflexivity; unfold before in B;
          destruct (Z.ltb_spec x (vx v)); try discriminate B; lia.
Qed.

Theorem populate_spec M d V id :
  tok (fst d) -> tok (snd d) -> StronglySorted pos_le V -> cols_closed V ->
  (forall lead x y, on (side lead d) id x y = false) ->
  let d' := populateTouchSetData M d V id in
  tok (fst d') /\ tok (snd d') /\
  forall lead i x y, on (side lead d') i x y = if i =? id then sgn lead (dcol V x y) else on (side lead d) i x y.
Proof.
  intros T1 T2 Hs Hc Hoff. unfold populateTouchSetData.
  destruct V as [|v W].
  - cbn [fold_left pp_data]. split; [exact T1|]. split; [exact T2|]. intros lead i x y.
    destruct (Z.eqb_spec i id); [|reflexivity]. subst. rewrite Hoff. destruct lead; reflexivity.
  - assert (E : pop_step id (mk_pop M M 0 d) v = mk_pop (vx v) (vy v) (vc v) d).
    { unfold pop_step. cbn [pp_pos pp_y pp_count pp_data]. destruct (Z.eqb_spec (vx v) M) as [E|E]; cbn [negb]; [|reflexivity].
      rewrite Z.eqb_refl. cbn [negb andb]. rewrite E. reflexivity. }
    cbn [fold_left]. rewrite E. clear E. inversion Hs as [|v0 l Hs1 Hs2]; subst.
    destruct (pop_fold id W (vx v) (vy v) (vc v) d T1 T2 Hs1) as [K1 [K2 K3]].
    + eapply Forall_impl; [|exact Hs2]. intros w Hw. unfold pos_le in Hw. lia.
    + intros x. specialize (Hc x). cbn [col_total] in Hc. rewrite (Z.eqb_sym x (vx v)). exact Hc.
    + intros lead x y _. apply Hoff.
    + split; [exact K1|]. split; [exact K2|]. intros lead i x y. rewrite K3. cbn [dcol]. rewrite (Z.eqb_sym (vx v) x).
      destruct (Z.eqb_spec i id) as [Ei|Ei]; cbn [andb]; [|reflexivity]. subst i.
      destruct (before x y (vx v) (vy v)) eqn:B; cbn [negb]; [|reflexivity].
      rewrite Hoff. unfold before in B. rewrite dcol_after.
      * destruct (Z.eqb_spec x (vx v)), (Z.leb_spec (vy v) y), (Z.ltb_spec x (vx v)), (Z.ltb_spec y (vy v)); try lia; try discriminate B; destruct lead; reflexivity.
      * eapply Forall_impl; [|exact Hs2]. intros w Hw. unfold pos_le in Hw.
        destruct (Z.ltb_spec x (vx v)), (Z.eqb_spec x (vx v)), (Z.ltb_spec y (vy v)); cbn in B; try discriminate B; lia.
Qed.
