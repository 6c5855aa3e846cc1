(* Columns, one after the other. *)
From Verif Require Import Base Units Outcome Scan90Spec Poly90Spec Poly90Model Poly90Proofs GeoSpec IvlModel RectModel SegModel PolySpec PolyModel PolyEdge ScanBaseModel ScanBaseOab SnapModel SnapSpec SnapProofs SnapLoops ArbSpec ArbOrder ArbSums ArbModel ArbMaps ArbLess ArbLine ArbColumn ArbBool ArbSetModel ArbSetProofs ArbSetCor ArbFormSpec ArbFormModel ArbFormChains ArbFormPoint ArbFormGeo ArbFormLine ArbFormVertex ArbFormColumn.
From Coq Require Import Reals Lra Sorting.Sorted Sorting.Permutation.

Section scan.
  Variable r : list pedge.
  Hypothesis nd : NoDup (map fst r).
  Hypothesis nod0 : noded (map fst r).
  Hypothesis ge : good_edges r.
  Hypothesis one : forall e c, In (e, c) r -> c = 1 \/ c = -1.
  Hypothesis clo : closed (as_set r).
  Hypothesis dep : forall x y, b01 (depth_below (as_set r) 0 x y) /\ b01 (depth_below_left (as_set r) 0 x y).
  Notation l := (fl r).
  Notation E := (map fst (fl r)).
  Notation ow := (ow r).
  Let nodE : noded E := nod r nod0.
  Let oE := ordE' r ge.
  Let fE := fitE' r ge.

  (* the scan line with the chains, when the edges that end at most in column X have been used *)
  Record sinv (b : seg -> bool) (X : Z) (d : list felem) (st : fstate) : Prop := mk_si {
    s_good : fgood E d;
    s_in : forall e, In e (map fst d) <-> In e E /\ px (s_low e) < X /\ X <= px (s_high e);
    s_cnt : forall a, In a d -> fst (snd a) = ow (fst a);
    s_inv : Inv st [] (map ent d);
    s_t : Permutation (T st) (map directed (filter (fun e => b (fst e)) r)) }.
  Definition before (X : Z) (e : seg) : bool := px (s_high e) <? X.

  Section event.
    Variables (X : Z) (d : list felem) (st : fstate).
    Hypothesis si : sinv (before X) X d st.
    Lemma in_d e : In e (map fst d) <-> In e E /\ px (s_low e) < X <= px (s_high e).
    Proof. apply (s_in _ _ _ _ si). Qed.
    Let Gd := s_good _ _ _ _ si.
    Let Cd := s_cnt _ _ _ _ si.

    Lemma column_ok ys : forall lim v elems gone st0, cinv r X d lim ys v elems gone st0 ->
      exists lim' v' elems' gone' st', column X d ys v elems gone st0 = Ok (elems', gone', st') /\ cinv r X d lim' [] v' elems' gone' st'.
    Proof.
      induction ys as [|[y evs] ys IH]; intros lim v elems gone st0 C.
      - exists lim, v, elems, gone, st0. split; [reflexivity|exact C].
      - destruct (step_ok r nd nod0 ge one clo dep X d Gd in_d Cd lim y evs ys v elems gone st0 C) as [v' [el' [go' [st' [Q C']]]]].
        destruct (IH _ _ _ _ _ C') as [lim2 [v2 [el2 [go2 [st2 [Q2 C2]]]]]]. exists lim2, v2, el2, go2, st2. split; [|exact C2]. etransitivity; [exact Q|exact Q2].
    Qed.

    Variable ys : list (Z * list (point * Z)).
    Hypothesis Hys : forall y, vertex l X y <-> In y (stops ys).
    Hypothesis Hev : forall y evs, In (y, evs) ys -> Permutation (filter (fun e => pt_less (mk_pt X y) (fst e)) evs) (starts r X y).
    Hypothesis Hsrt : StronglySorted Z.lt (stops ys).
    Lemma first_inv : cinv r X d (match ys with (y, _) :: _ => y | [] => 0 end) ys None [] [] st.
    Proof.
      set (lim := match ys with (y, _) :: _ => y | [] => 0 end).
      assert (LO : forall y, vertex l X y -> lim <= y).
      { intros y V. apply Hys in V. unfold lim. destruct ys as [|[z ez] ys']; [destruct V|]. cbn [stops map fst] in V. unfold stops in Hsrt. cbn [map fst] in Hsrt. apply StronglySorted_inv in Hsrt as [_ F]. rewrite Forall_forall in F. destruct V as [<-|V]; [lia|]. apply F in V. lia. }
      assert (DH : forall e, In e E -> doneH X lim e = before X e).
      { intros e He. unfold doneH, before. destruct (Z.ltb_spec (px (s_high e)) X) as [K|K]; [reflexivity|]. cbn [orb]. destruct (Z.eqb_spec (px (s_high e)) X) as [Q|Q]; [|reflexivity]. cbn [andb]. apply Z.ltb_ge. apply LO. apply (high_vertex r X e He Q). }
      constructor.
      - intros y V. right. apply Hys, V.
      - intros y evs I. assert (V : vertex l X y) by (apply Hys; apply (in_map fst _ _ I)). split; [apply LO, V|]. split; [exact V|apply Hev, I].
      - exact Hsrt.
      - replace (newl r X lim) with (@nil pedge); [apply Permutation_refl|]. symmetry. apply filter_none. intros [e c] I. cbn [fst]. pose proof (r_E r e c I) as He. unfold newb. destruct (Z.eqb_spec (px (s_low e)) X) as [Q|Q]; [|reflexivity]. pose proof (LO _ (low_vertex r X e He Q)) as K. rewrite (proj2 (Z.ltb_ge _ _) K). reflexivity.
      - split; [constructor|]. intros e. split; [intros []|]. intros [A B]. apply in_d in A as [A1 A2]. rewrite (DH e A1) in B. unfold before in B. lia.
      - eapply Permutation_trans; [apply (s_t _ _ _ _ si)|]. unfold doneE. rewrite (filter_ext_in (fun e => doneH X lim (fst e)) (fun e => before X (fst e))); [apply Permutation_refl|]. intros [e c] I. apply DH, (r_E r e c I).
      - exists [], []. split.
        + split; [reflexivity|]. split; [reflexivity|]. intros e He _ Q K. pose proof (LO _ (low_vertex r X e He Q)). lia.
        + eapply Inv_perm; [apply (s_inv _ _ _ _ si)|]. cbn [map app]. rewrite app_nil_r. unfold dleft. rewrite filter_all; [apply Permutation_refl|]. intros a A. assert (K : In (fst a) (map fst d)) by apply (in_map fst _ _ A). apply in_d in K as [K1 K2]. rewrite (DH _ K1). unfold before. lia.
    Qed.
    Definition upto (e : seg) : bool := px (s_high e) <=? X.
    Lemma event_ok : exists d' st', process_event X ys d st = Ok (d', st') /\ fgood E d' /\ (forall e, In e (map fst d') <-> In e E /\ px (s_low e) <= X < px (s_high e)) /\ (forall a, In a d' -> fst (snd a) = ow (fst a)) /\
      Inv st' [] (map ent d') /\ Permutation (T st') (map directed (filter (fun e => upto (fst e)) r)).
    Proof.
      destruct (column_ok ys _ _ _ _ _ first_inv) as [lim [v [elems [gone [st' [Q [C1 _ _ C4 [C5 C5'] C6 [hl [va [VS IV]]]]]]]]]].
      assert (HL : forall y, vertex l X y -> y < lim) by (intros y V; destruct (C1 y V) as [K|[]]; exact K).
      assert (DH : forall e, In e E -> doneH X lim e = upto e).
      { intros e He. unfold doneH, upto. destruct (Z.eqb_spec (px (s_high e)) X) as [K|K]; cbn [andb]; [|lia]. pose proof (HL _ (high_vertex r X e He K)). lia. }
      assert (NB : forall e, In e E -> newb X lim e = (px (s_low e) =? X) && nvb e).
      { intros e He. unfold newb. destruct (Z.eqb_spec (px (s_low e)) X) as [K|K]; cbn [andb]; [|reflexivity]. pose proof (HL _ (low_vertex r X e He K)) as J. rewrite (proj2 (Z.ltb_lt _ _) J). reflexivity. }
      assert (HV : hl = [] /\ va = []).
      { destruct v as [[[q c] t]|]; cbn [vst] in VS; [|destruct VS as [V1 [V2 _]]; auto]. exfalso. destruct VS as [[e [E1 [E2 [E3 [E4 [_ [E5 _]]]]]]]|[_ [_ [_ [_ [y [evs [ys' [K _]]]]]]]]]; [|discriminate].
        pose proof (proj1 (vert_iff r ge e E1) E2) as [V1 _]. rewrite E3, E4 in V1. pose proof (HL _ (high_vertex r X e E1 (eq_sym V1))). lia. }
      destruct HV as [-> ->]. rewrite app_nil_r in IV.
      assert (EI : forall a, In a elems -> In (fst a) E /\ px (s_low (fst a)) = X /\ X < px (s_high (fst a)) /\ fst (snd a) = ow (fst a)).
      { intros a A. apply (in_map key) in A. eapply Permutation_in in A; [|exact C4]. unfold newl in A. apply filter_In in A as [A1 A2]. unfold key in A1, A2. cbn [fst] in A2. pose proof (r_E r _ _ A1) as He. rewrite (NB _ He) in A2. apply andb_true_iff in A2 as [A2 A3]. apply Z.eqb_eq in A2. split; [exact He|]. split; [exact A2|]. split; [|symmetry; apply (own_r r nd _ _ A1)].
        unfold nvb in A3. apply negb_true_iff in A3. pose proof (oE _ He) as O. apply ordered_iff in O. rewrite <- A2. apply not_true_iff_false in A3. rewrite vertical_edge_iff in A3. lia. }
      assert (EN : NoDup (map fst elems)).
      { replace (map fst elems) with (map fst (map key elems)) by (rewrite map_map; reflexivity). eapply Permutation_NoDup; [apply Permutation_map, Permutation_sym, C4|]. unfold newl. clear - nd. induction r as [|e m IH]; [constructor|]. cbn [map] in nd. inversion nd as [|? ? N1 N2]; subst. cbn [filter]. destruct (newb X lim (fst e)); [|apply IH, N2]. cbn [map]. constructor; [|apply IH, N2]. intros K. apply N1. apply in_map_iff in K as [f [K F]]. apply filter_In in F as [F _]. rewrite <- K. apply in_map, F. }
      assert (GI : forall e, In e gone <-> In e (map fst d) /\ px (s_high e) = X).
      { intros e. rewrite C5'. split; intros [A B]; (split; [exact A|]); pose proof (proj1 (in_d e) A) as [A1 A2]; rewrite (DH e A1) in *; unfold upto in *; lia. }
      destruct (f_erases_ok E gone d Gd C5) as [d1 [D1 [D2 D3]]]; [intros s S; apply GI in S; apply S|].
      assert (DI : forall a, In a d1 <-> In a d /\ X < px (s_high (fst a))).
      { intros a. rewrite D3, GI. split; intros [A B]; (split; [exact A|]); assert (K : In (fst a) (map fst d)) by apply (in_map fst _ _ A); pose proof (proj1 (in_d _) K) as [K1 K2].
        - assert (px (s_high (fst a)) <> X) by tauto. lia.
        - intros [_ J]. lia. }
      assert (DP : Permutation (dleft X d lim) d1).
      { apply NoDup_Permutation.
        - apply NoDup_filter. apply (NoDup_map_inv fst), (fgood_nodup E d Gd).
        - apply (NoDup_map_inv fst), (fgood_nodup E d1 D2).
        - intros a. unfold dleft. rewrite filter_In, DI. split; intros [A B]; (split; [exact A|]); assert (K : In (fst a) (map fst d)) by apply (in_map fst _ _ A); pose proof (proj1 (in_d _) K) as [K1 K2]; rewrite (DH _ K1) in *; unfold upto in *; lia. }
      destruct (f_inserts_ok E nodE oE fE X elems d1 D2) as [d2 [F1 [F2 F3]]].
      { intros a A. apply DI in A as [A1 A2]. assert (K : In (fst a) (map fst d)) by apply (in_map fst _ _ A1). apply in_d in K. lia. }
      { intros a A. apply EI in A as [A1 [A2 [A3 _]]]. split; [split; [exact A1|lia]|exact A2]. }
      { rewrite map_app. apply nodup_both; [exact EN|apply (fgood_nodup E d1 D2)|]. intros e A B. apply in_map_iff in A as [a [<- A]]. apply EI in A as [_ [A _]]. apply in_map_iff in B as [b [B1 B2]]. apply DI in B2 as [B2 _]. assert (K : In (fst b) (map fst d)) by apply (in_map fst _ _ B2). rewrite B1 in K. apply in_d in K. lia. }
      exists d2, st'. split; [unfold process_event; rewrite Q; cbn [obind]; cbv iota beta; rewrite D1; cbn [obind]; rewrite F1; reflexivity|]. split; [exact F2|]. split; [|split; [|split]].
      - intros e. split.
        + intros K. apply in_map_iff in K as [a [<- K]]. eapply Permutation_in in K; [|apply Permutation_sym, F3]. apply in_app_or in K as [K|K]; [apply EI in K as [K1 [K2 [K3 _]]]; split; [exact K1|lia]|]. apply DI in K as [K1 K2]. assert (J : In (fst a) (map fst d)) by apply (in_map fst _ _ K1). apply in_d in J as [J1 J2]. split; [exact J1|lia].
        + intros [K1 K2]. assert (J : In e (map fst (elems ++ d1))); [|apply in_map_iff in J as [a [<- J]]; apply in_map; eapply Permutation_in; [exact F3|exact J]]. rewrite map_app. apply in_or_app. destruct (Z.eq_dec (px (s_low e)) X) as [P|P].
          * left. assert (J : In (e, ow e) (map key elems)).
            { eapply Permutation_in; [apply Permutation_sym, C4|]. unfold newl. apply filter_In. split; [apply r_own; assumption|]. cbn [fst]. rewrite (NB e K1), P, Z.eqb_refl. unfold nvb. cbn [andb]. apply negb_true_iff, not_true_iff_false. rewrite vertical_edge_iff. lia. }
            apply in_map_iff in J as [a [J1 J2]]. unfold key in J1. assert (fst a = e) as <- by congruence. apply in_map, J2.
          * right. assert (J : In e (map fst d)) by (apply in_d; split; [exact K1|lia]). apply in_map_iff in J as [a [<- J]]. apply in_map, DI. split; [exact J|lia].
      - intros a A. eapply Permutation_in in A; [|apply Permutation_sym, F3]. apply in_app_or in A as [A|A]; [apply EI, A|]. apply Cd. apply DI, A.
      - eapply Inv_perm; [exact IV|]. eapply Permutation_trans; [apply Permutation_app_comm|]. eapply Permutation_trans; [apply Permutation_app_head, Permutation_map, DP|]. rewrite <- map_app. apply Permutation_map, F3.
      - eapply Permutation_trans; [exact C6|]. unfold doneE. rewrite (filter_ext_in (fun e => doneH X lim (fst e)) (fun e => upto (fst e))); [apply Permutation_refl|]. intros [e c] I. apply DH, (r_E r e c I).
    Qed.
  End event.

  (* the columns of the set, from left to right *)
  Definition on_column (X : Z) : Prop := exists y, vertex l X y.
  Definition good_cols (cols : list (Z * list (Z * list (point * Z)))) : Prop := forall X ys, In (X, ys) cols ->
    (forall y, vertex l X y <-> In y (stops ys)) /\ (forall y evs, In (y, evs) ys -> Permutation (filter (fun e => pt_less (mk_pt X y) (fst e)) evs) (starts r X y)) /\ StronglySorted Z.lt (stops ys).
  Lemma scan_ok cols : good_cols cols -> StronglySorted Z.lt (map fst cols) -> forall X0 d st, (forall X, In X (map fst cols) -> X0 < X) -> (forall X, on_column X -> X <= X0 \/ In X (map fst cols)) ->
    fgood E d -> (forall e, In e (map fst d) <-> In e E /\ px (s_low e) <= X0 < px (s_high e)) -> (forall a, In a d -> fst (snd a) = ow (fst a)) -> Inv st [] (map ent d) -> Permutation (T st) (map directed (filter (fun e => upto X0 (fst e)) r)) ->
    exists st', scan_columns cols d st = Ok st' /\ Inv st' [] [] /\ Permutation (T st') (map directed r).
  Proof.
    assert (LV : forall e, In e E -> on_column (px (s_low e)) /\ on_column (px (s_high e))) by (intros e He; split; eexists; [apply (low_vertex r _ e He eq_refl)|apply (high_vertex r _ e He eq_refl)]).
    induction cols as [|[X ys] cols IH]; intros G S X0 d st H1 H2 D1 D2 D3 D4 D5.
    - exists st. split; [reflexivity|]. assert (d = []) as ->.
      { destruct d as [|a d]; [reflexivity|]. exfalso. destruct (proj1 (D2 (fst a)) (or_introl eq_refl)) as [K1 K2]. destruct (H2 _ (proj2 (LV _ K1))) as [K|[]]. lia. }
      split; [exact D4|]. rewrite filter_all in D5; [exact D5|]. intros [e c] I. unfold upto. cbn [fst]. destruct (H2 _ (proj2 (LV _ (r_E r e c I)))) as [K|[]]. lia.
    - cbn [map fst] in *. apply StronglySorted_inv in S as [S F]. rewrite Forall_forall in F. pose proof (H1 X (or_introl eq_refl)) as HX. destruct (G X ys (or_introl eq_refl)) as [G1 [G2 G3]].
      assert (CO : forall x, on_column x -> x < X <-> x <= X0) by (intros x O; destruct (H2 x O) as [K|[K|K]]; [lia|lia|apply F in K; lia]).
      assert (SI : sinv (before X) X d st).
      { constructor; [exact D1| |exact D3|exact D4|].
        - intros e. rewrite D2. split; intros [A B]; (split; [exact A|]); destruct (LV e A) as [L1 L2]; pose proof (CO _ L1); pose proof (CO _ L2); lia.
        - eapply Permutation_trans; [exact D5|]. rewrite (filter_ext_in (fun e => upto X0 (fst e)) (fun e => before X (fst e))); [apply Permutation_refl|]. intros [e c] I. unfold upto, before. cbn [fst]. destruct (LV e (r_E r e c I)) as [_ L2]. pose proof (CO _ L2). lia. }
      destruct (event_ok X d st SI ys G1 G2 G3) as [d' [st' [Q [E1 [E2 [E3 [E4 E5]]]]]]].
      destruct (IH (fun X' ys' I => G X' ys' (or_intror I)) S X d' st' F) as [st2 [Q2 R2]]; try assumption.
      + intros x O. destruct (H2 x O) as [K|[K|K]]; [left; lia|left; lia|right; exact K].
      + exists st2. split; [|exact R2]. cbn [scan_columns]. rewrite Q. cbn [obind]. cbv iota beta. exact Q2.
  Qed.
End scan.
