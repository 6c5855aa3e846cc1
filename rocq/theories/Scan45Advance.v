(* The sweep for 45-degree polygons: the crossings at a column. *)
From Verif Require Import Base Units Scan90Spec Poly90Spec Poly90Model Poly90Proofs ArbSpec ArbSums Ins45Spec Ins45Model Scan45Model Scan45Base Scan45Step Scan45Process.
From Coq Require Import Sorting.Sorted.

Definition two (x : Z) (A : list elem) (y : Z) : bool := Nat.leb 2 (length (eqs x y A)).

Lemma set_down_m c k0 k1 k2 : set_down (-1) c (k0, k1, k2) = (c, k1, k2).
Proof. reflexivity. Qed.
Lemma set_down_z c k0 k1 k2 : set_down 0 c (k0, k1, k2) = (c, c, k2).
Proof. reflexivity. Qed.
Lemma set_down_p c k0 k1 k2 : set_down 1 c (k0, k1, k2) = (c, c, c).
Proof. reflexivity. Qed.
Lemma group3 x y G : StronglySorted (before x) G -> (forall a, In a G -> rise_ok a /\ ev a x = y) -> match G with _ :: _ :: _ :: _ :: _ => False | _ => True end.
Proof.
  intros S H. destruct G as [|a [|b [|c [|d G]]]]; try exact I.
  inversion S as [|? ? S1 F1]; subst. inversion S1 as [|? ? S2 F2]; subst. inversion S2 as [|? ? S3 F3]; subst. inversion F1 as [|? ? Q1 _]; subst. inversion F2 as [|? ? Q2 _]; subst. inversion F3 as [|? ? Q3 _]; subst.
  destruct (H a ltac:(cbn; auto)), (H b ltac:(cbn; auto)), (H c ltac:(cbn; auto)), (H d ltac:(cbn; auto)). unfold before, rise_ok in *. lia.
Qed.
Lemma derive_W g F x y d G : additive g -> StronglySorted (before x) G -> (forall a, In a G -> rise_ok a /\ ev a x = y) -> esum1 g F (derive (mk_pt x y) d G) = W g F d G.
Proof.
  intros [A0 [A1 A2]] S H. assert (LN : forall a, In a G -> line a = line_at (mk_pt x y) (e_rise a)) by (intros a A; rewrite (line_ev a x); destruct (H a A) as [_ ->]; reflexivity).
  pose proof (group3 x y G S H) as L3. unfold esum1.
  destruct G as [|a [|b [|c [|? ?]]]]; [| | | |contradiction]; unfold derive; cbn [W fold_left].
  - cbn [n_0 n_1 n_2 n_pt]. rewrite !A2. lia.
  - rewrite (LN a) by (cbn; auto). destruct (H a ltac:(cbn; auto)) as [Ra _]. unfold rise_ok in Ra. assert (e_rise a = -1 \/ e_rise a = 0 \/ e_rise a = 1) as [K|[K|K]] by lia; rewrite K; rewrite ?set_down_m, ?set_down_z, ?set_down_p; cbn [n_0 n_1 n_2 n_pt]; rewrite !A2; lia.
  - rewrite (LN a), (LN b) by (cbn; auto). destruct (H a ltac:(cbn; auto)) as [Ra Ea], (H b ltac:(cbn; auto)) as [Rb Eb]. unfold rise_ok in *. inversion S as [|? ? S1 F1]; subst. inversion F1 as [|? ? Q1 _]; subst. unfold before in Q1.
    assert (e_rise a = 0 \/ e_rise a = 1) as [K|K] by lia; (assert (e_rise b = -1 \/ e_rise b = 0) as [K'|K'] by lia); try (exfalso; lia); rewrite K, K'; rewrite ?set_down_m, ?set_down_z, ?set_down_p; rewrite ?set_down_m, ?set_down_z, ?set_down_p; cbn [n_0 n_1 n_2 n_pt]; rewrite !A2; lia.
  - rewrite (LN a), (LN b), (LN c) by (cbn; auto). destruct (H a ltac:(cbn; auto)) as [Ra Ea], (H b ltac:(cbn; auto)) as [Rb Eb], (H c ltac:(cbn; auto)) as [Rc Ec]. unfold rise_ok in *. inversion S as [|? ? S1 F1]; subst. inversion F1 as [|? ? Q1 _]; subst. inversion S1 as [|? ? S2 F2]; subst. inversion F2 as [|? ? Q2 _]; subst. unfold before in *.
    assert (e_rise a = 1) as K by lia. assert (e_rise b = 0) as K' by lia. assert (e_rise c = -1) as K'' by lia. rewrite K, K', K''. rewrite set_down_p, set_down_z, set_down_m. cbn [n_0 n_1 n_2 n_pt]. rewrite !A2. lia.
Qed.
Lemma derive_pt p d G : n_pt (derive p d G) = p /\ n_3 (derive p d G) = cz.
Proof. unfold derive. destruct (fold_left _ G _) as [[k0 k1] k2]. auto. Qed.

Section scan.
  Context (keep : cnt2 -> bool).
  Lemma group_osum F x y G : forall d, (forall a, In a G -> rise_ok a /\ ev a x = y) -> osum F (emit_group keep (mk_pt x y) d G) = - W (keepz keep) F d G.
  Proof.
    induction G as [|e G IH]; intros d H; [reflexivity|]. cbn [emit_group W]. destruct (H e (or_introl eq_refl)) as [R E]. rewrite osum_app, IH, emit_osum, (line_ev e x), E by (auto; intros a A; apply H; right; exact A). lia.
  Qed.
  Lemma group_at x y G : forall d, at_x x (emit_group keep (mk_pt x y) d G).
  Proof. induction G as [|e G IH]; intros d; [intros q []|]. cbn [emit_group]. apply at_x_app; [apply emit_at; reflexivity|apply IH]. Qed.

  Lemma group_vsum H x y G : forall d, (forall a, In a G -> rise_ok a) -> vsum H (emit_group keep (mk_pt x y) d G) = 0.
  Proof. induction G as [|e G IH]; intros d R; [reflexivity|]. cbn [emit_group]. assert (R1 := R e (or_introl eq_refl)); unfold rise_ok in R1. rewrite vsum_app, IH, emit_vsum; [reflexivity|exact R1|intros a I; apply R; right; exact I]. Qed.

  Lemma cross_at_good x A y : StronglySorted (before x) A -> (forall a, In a A -> rise_ok a) ->
    good (cross_at keep x A y) (fun t => let '(o, cv, er, ps) := t in
      (if two x A y then er = [y] /\ o = emit_group keep (mk_pt x y) (lastc cz (lts x y A)) (eqs x y A) /\ cv = [derive (mk_pt x y) (lastc cz (lts x y A)) (eqs x y A)] else er = [] /\ o = [] /\ cv = []) /\
      aheads x ps /\ forall e, eqs x y A = [e] -> link (guard x ps) (Some e) (hd_error (gts x y A))).
  Proof.
    intros S R. pose proof (three x y A S) as E3. unfold two. set (lo := lts x y A) in *. set (G := eqs x y A) in *. set (U := gts x y A) in *.
    assert (Hlo : forall a, In a lo -> rise_ok a /\ ev a x < y) by (intros a I; apply filter_In in I as [I J]; split; [auto|lia]).
    assert (HG : forall a, In a G -> rise_ok a /\ ev a x = y) by (intros a I; apply filter_In in I as [I J]; split; [auto|lia]).
    assert (HU : forall a, In a U -> rise_ok a /\ y < ev a x) by (intros a I; apply filter_In in I as [I J]; split; [auto|lia]).
    assert (SG : StronglySorted (before x) G) by (rewrite E3 in S; apply strong_app in S as [_ [S _]]; apply strong_app in S as [S _]; exact S).
    clearbody lo G U. subst A. unfold cross_at. rewrite lower_split; cycle 1. { intros a I. apply (Hlo a I). } { intros a I. apply in_app_or in I as [I|I]; [destruct (HG a I); lia|destruct (HU a I); lia]. }
    cbn [rbind]. rewrite span_split; cycle 1. { intros a I. destruct (HG a I). lia. } { destruct U as [|u U]; [exact I|]. destruct (HU u (or_introl eq_refl)). lia. }
    pose proof (group3 x y G SG HG) as L3. destruct G as [|a [|b [|c [|? ?]]]]; [| | | |contradiction]; cbn [length Nat.leb].
    - cbn [good]. repeat split; auto. intros p []. intros e E. discriminate.
    - destruct (HG a (or_introl eq_refl)) as [Ra Ea]. eapply good_bind; [apply find_good; [exact Ra| |]|].
      + intros b B. apply last_opt_in in B as [l' ->]. destruct (Hlo b ltac:(apply in_or_app; right; left; reflexivity)) as [H1 H2]. split; [exact H1|]. unfold orderly. lia.
      + intros b B. destruct U as [|u U]; [discriminate|]. assert (u = b) as -> by (cbn in B; congruence). destruct (HU b (or_introl eq_refl)) as [H1 H2]. split; [exact H1|]. unfold orderly. lia.
      + intros ps [_ [G2 G3]]. cbn [good]. split; [auto|]. split; [exact G3|]. intros e E. assert (a = e) as <- by congruence. exact G2.
    - cbn [good]. split; [auto|]. split; [intros p []|]. intros e E. discriminate.
    - cbn [good]. split; [auto|]. split; [intros p []|]. intros e E. discriminate.
  Qed.
  Lemma cross_all_good x A ys : StronglySorted (before x) A -> (forall a, In a A -> rise_ok a) ->
    good (cross_all keep x A ys) (fun t => let '(o, cv, er, ps) := t in
      er = filter (two x A) ys /\ o = flat_map (fun y => emit_group keep (mk_pt x y) (lastc cz (lts x y A)) (eqs x y A)) er /\
      cv = map (fun y => derive (mk_pt x y) (lastc cz (lts x y A)) (eqs x y A)) er /\ aheads x ps /\
      forall y e, In y ys -> eqs x y A = [e] -> link (guard x ps) (Some e) (hd_error (gts x y A))).
  Proof.
    intros S R. induction ys as [|y ys IH]; cbn [cross_all].
    - cbn [good filter flat_map map]. repeat split; auto. intros p []. intros y e [].
    - eapply good_bind; [apply (cross_at_good x A y S R)|]. intros [[[o cv] er] ps] [H1 [H2 H3]]. eapply good_bind; [exact IH|]. intros [[[o' cv'] er'] ps'] [-> [-> [-> [I4 I5]]]]. cbn [good filter].
      assert (LK : forall z e, z = y \/ In z ys -> eqs x z A = [e] -> link (guard x (ps ++ ps')) (Some e) (hd_error (gts x z A))).
      { intros z e [->|Z1] E; eapply link_incl; try (apply H3; exact E); try (apply (I5 _ _ Z1 E)); intros p P; apply in_or_app; auto. }
      destruct (two x A y); destruct H1 as [-> [-> ->]]; cbn [app flat_map map]; (split; [reflexivity|]; split; [reflexivity|]; split; [reflexivity|]; split; [apply aheads_app; assumption|]; intros z e Z1; apply LK; destruct Z1; auto).
  Qed.

  Lemma group_sum g F x A er : StronglySorted (before x) A -> NoDup er -> tot (fun y => W g F (lastc cz (lts x y A)) (eqs x y A)) er = WE g F (fun a => existsb (Z.eqb (ev a x)) er) cz A.
  Proof.
    intros S. induction 1 as [|y er N D IH]; [symmetry; apply WE_none; reflexivity|]. cbn [tot existsb]. rewrite WE_or, IH.
    - f_equal. rewrite (three x y A S) at 3. rewrite !WE_app, WE_none, WE_all, WE_none.
      + lia.
      + intros a I. apply filter_In in I. lia.
      + intros a I. apply filter_In in I. lia.
      + intros a I. apply filter_In in I. lia.
    - intros e _ E1 E2. apply N. apply existsb_exists in E2 as [z [Z1 Z2]]. assert (z = y) as <- by lia. exact Z1.
  Qed.

  Lemma marks_map gone A : map fst (marks gone A) = filter (fun a => negb (gone a)) A.
  Proof. induction A as [|e A IH]; [reflexivity|]. cbn [marks filter]. destruct (gone e); cbn [negb map fst]; rewrite IH; reflexivity. Qed.

  Lemma walk_annl x gone cv A : (forall g P, additive g -> g (ds P cv) = WE g (onl x P) gone cz A) -> StronglySorted (fun a b => before x a b /\ (ev a x = ev b x -> gone a = true)) A -> (forall a b, In a A -> In b A -> ev a x = ev b x -> gone a = gone b) ->
    forall A2 A1 s l d, A = A1 ++ A2 -> d = lastc cz A1 -> (forall g, additive g -> g d = g l + WE g (onl x (fun y => s <? y)) gone cz A1) -> (forall a, In a A2 -> s < ev a x) -> walk x s l (annl gone d A2) cv.
  Proof.
    intros Hds S Hg. induction A2 as [|e A2 IH]; intros A1 s l d EA Ed Hd Hs; [exact I|]. cbn [annl].
    assert (SA := S). rewrite EA in SA. apply strong_app in SA as [_ [SA S12]]. inversion SA as [|? ? SA2 Fe]; subst a l0. rewrite Forall_forall in Fe.
    assert (Ie : In e A) by (rewrite EA; apply in_or_app; right; left; reflexivity). pose proof (Hs e (or_introl eq_refl)) as He.
    destruct (gone e) eqn:Ge.
    - apply (IH (A1 ++ [e]) s l (e_cnt e)); [rewrite <- app_assoc; exact EA|rewrite lastc_app; reflexivity| |intros a I; apply Hs; right; exact I].
      intros g Ag. rewrite WE_app. cbn [WE]. rewrite Ge, onl_line, <- Ed. assert (s <? ev e x = true) as -> by lia. rewrite (Hd g Ag). lia.
    - assert (I1 : forall a, In a A1 -> In a A) by (intros a I; rewrite EA; apply in_or_app; left; exact I). assert (I2 : forall a, In a A2 -> In a A) by (intros a I; rewrite EA; apply in_or_app; right; right; exact I).
      assert (L1 : forall a, In a A1 -> ev a x <= ev e x /\ (gone a = true -> ev a x < ev e x)).
      { intros a I. destruct (S12 a e I (or_introl eq_refl)) as [B _]. split; [unfold before in B; lia|]. intros Ga. assert (ev a x <> ev e x) by (intros E; rewrite (Hg a e (I1 a I) Ie E) in Ga; congruence). unfold before in B. lia. }
      assert (L2 : forall a, In a A2 -> ev e x < ev a x).
      { intros a I. destruct (Fe a I) as [B T]. unfold before in B. assert (ev e x <> ev a x) by (intros E; specialize (T E); congruence). lia. }
      cbn [walk]. split; [|split].
      + assert (Q : forall g, additive g -> g d = g (cadd l (ds (fun y => (s <? y) && (y <? ev e x)) cv))).
        { intros g Ag. destruct (Ag) as [_ [A1' _]]. rewrite A1', (Hds g _ Ag), EA, WE_app, (Hd g Ag). f_equal. cbn [WE]. rewrite Ge. rewrite (WE_zero g _ gone A2).
          - rewrite (WE_ext g (onl x (fun y => s <? y)) (onl x (fun y => (s <? y) && (y <? ev e x))) gone gone A1 cz); [lia|reflexivity|]. intros a I Ga. rewrite !onl_line. destruct (L1 a I) as [_ L]. specialize (L Ga). assert (ev a x <? ev e x = true) as -> by lia. rewrite andb_true_r. reflexivity.
          - intros a I _. rewrite onl_line. specialize (L2 a I). assert ((s <? ev a x) && (ev a x <? ev e x) = false) as -> by lia. reflexivity. }
        apply cnt2_eq; apply Q; [apply fst_additive|apply snd_additive].
      + assert (Q : forall g, additive g -> g (ds (fun y => y =? ev e x) cv) = g cz).
        { intros g Ag. rewrite (Hds g _ Ag). destruct Ag as [-> _]. apply WE_zero. intros a I Ga. rewrite onl_line. assert (ev a x <> ev e x) by (intros E; rewrite (Hg a e I Ie E) in Ga; congruence). assert (ev a x =? ev e x = false) as -> by lia. reflexivity. }
        apply cnt2_eq; apply Q; [apply fst_additive|apply snd_additive].
      + apply (IH (A1 ++ [e]) (ev e x) (e_cnt e) (e_cnt e)); [rewrite <- app_assoc; exact EA|rewrite lastc_app; reflexivity| |exact L2].
        intros g Ag. rewrite WE_zero; [lia|]. intros a I Ga. rewrite onl_line. assert (ev e x <? ev a x = false) as ->; [|reflexivity]. apply in_app_or in I as [I|[<-|[]]]; [destruct (L1 a I); lia|lia].
  Qed.

  (* the new neighbours *)
  Lemma search_good x Q M : forall prev, chain (fun a b => snd a = true \/ guard x Q (fst a) (fst b)) M -> StronglySorted (fun a b => ev a x < ev b x) (map fst M) -> (forall a, In a (map fst M) -> rise_ok a) ->
    (forall p, prev = Some p -> rise_ok p /\ forall a, In a (map fst M) -> ev p x < ev a x) ->
    good (search x prev M) (fun ps => chain (guard x (ps ++ Q)) (map fst M) /\ aheads x ps).
  Proof.
    induction M as [|[a fl] M IH]; intros prev C S R P; cbn [search map fst] in *.
    - cbn [good]. split; [exact I|intros p []].
    - inversion S as [|? ? S1 S2]; subst. rewrite Forall_forall in S2. destruct C as [C1 C2]. pose proof (R a (or_introl eq_refl)) as Ra.
      eapply good_bind with (P := fun ps => aheads x ps /\ link (guard x (ps ++ Q)) (Some a) (hd_error (map fst M))).
      + destruct fl.
        * eapply good_impl; [apply find_good; [exact Ra| |]|].
          -- intros b B. destruct (P b B) as [P1 P2]. split; [exact P1|]. specialize (P2 a (or_introl eq_refl)). unfold orderly. lia.
          -- intros b B. assert (In b (map fst M)) as Ib by (destruct (map fst M); [discriminate|left; cbn in B; congruence]). split; [apply R; right; exact Ib|]. specialize (S2 b Ib). unfold orderly. lia.
          -- intros ps [_ [G2 G3]]. split; [exact G3|]. eapply link_incl; [|exact G2]. intros p I. apply in_or_app. left. exact I.
        * cbn [good]. split; [intros p []|]. destruct M as [|[b fl'] M]; [exact I|]. cbn [map fst hd_error link app]. destruct C1 as [C1|C1]; [discriminate|exact C1].
      + intros ps [G1 G2]. eapply good_bind; [apply (IH (Some a) C2 S1)|].
        * intros b B. apply R. right. exact B.
        * intros p E. assert (a = p) as <- by congruence. split; [exact Ra|exact S2].
        * intros ps' [H1 H2]. cbn [good]. split; [|apply aheads_app; assumption]. cbn [chain]. split.
          -- assert (LK : link (guard x ((ps ++ ps') ++ Q)) (Some a) (hd_error (map fst M))) by (eapply link_incl; [|exact G2]; intros p I; rewrite !in_app_iff in *; tauto). destruct (map fst M); [exact I|exact LK].
          -- revert H1. apply chain_incl. intros p I. rewrite !in_app_iff in *. tauto.
  Qed.

  Lemma NoDup_sorted l : StronglySorted Z.lt l -> NoDup l.
  Proof. induction 1 as [|a l S IH F]; [constructor|]. constructor; [|exact IH]. intros I. rewrite Forall_forall in F. specialize (F a I). lia. Qed.
  Lemma filter_sorted {T : Type} (R : T -> T -> Prop) f l : StronglySorted R l -> StronglySorted R (filter f l).
  Proof. induction 1 as [|a l S IH F]; [constructor|]. cbn [filter]. destruct (f a); [|exact IH]. constructor; [exact IH|]. rewrite Forall_forall in *. intros b B. apply filter_In in B as [B _]. auto. Qed.

  Lemma advance_good x0 x A Q : x0 < x -> (forall a, In a A -> rise_ok a) -> StronglySorted (after x0) A -> chain (guard x0 Q) A -> (forall p, In p Q -> x <= px p) ->
    good (advance keep x A Q) (fun t => let '(o, cv, K, Q') := t in
      exists gone B, K = map snd B /\ (forall b, In b B -> In (snd b) A) /\ StronglySorted (fun a b => ev a x < ev b x) K /\
        (forall s, (forall a, In a A -> s < ev a x) -> walk x s cz B cv) /\ (forall w, In w cv -> px (n_pt w) = x /\ n_3 w = cz /\ exists a, In a A /\ yw w = ev a x) /\ StronglySorted (fun a b => yw a < yw b) cv /\
        chain (guard x Q') K /\ aheads x Q' /\ at_x x o /\
        (forall g F, additive g -> WB g F B + esum g F cv = W g F cz A) /\ (forall F, WB (keepz keep) F B - osum F o = W (keepz keep) F cz A) /\
        vinv x gone cz A B cv /\ forall H, vsum H o = 0).
  Proof.
    intros X0 R SA GA QX. unfold advance. destruct (q_ys_spec x Q) as [YS YI]. set (ys := q_ys x Q) in *.
    set (tied := fun a b => before x a b /\ (ev a x = ev b x -> In (mk_pt x (ev a x)) Q)).
    assert (ST : StronglySorted tied A).
    { apply chain_strong.
      - unfold tied. intros a b c [H1 H2] [H3 H4]. split; [eapply before_trans; eassumption|]. intros E. apply H2. unfold before in *. lia.
      - apply strong_chain in SA. pose proof (chain_and _ _ _ SA GA) as C. revert C. apply chain_impl. intros a b Ia Ib [C1 C2]. unfold tied. apply (to_before x0 x Q a b); auto. }
    assert (SB : StronglySorted (before x) A) by (revert ST; apply strong_impl; intros a b _ _ [H _]; exact H).
    eapply good_bind; [apply (cross_all_good x A ys SB R)|]. intros [[[o cv] er] ps] [Her [Ho [Hcv [Hps Hlk]]]].
    set (gone := fun a => existsb (Z.eqb (ev a x)) er).
    assert (Gg : forall a b, ev a x = ev b x -> gone a = gone b) by (intros a b E; unfold gone; rewrite E; reflexivity).
    assert (GI : forall a, gone a = true <-> In (ev a x) er) by (intros a; unfold gone; rewrite existsb_exists; split; [intros [z [Z1 Z2]]; assert (z = ev a x) as <- by lia; exact Z1|intros I; exists (ev a x); split; [exact I|lia]]).
    assert (Ner : NoDup er) by (rewrite Her; apply NoDup_filter, NoDup_sorted, YS).
    assert (SAg : StronglySorted (fun a b => before x a b /\ (ev a x = ev b x -> gone a = true)) A).
    { assert (Suf : forall S P, A = P ++ S -> StronglySorted (fun a b => before x a b /\ (ev a x = ev b x -> gone a = true)) S).
      { induction S as [|a S IHS]; intros P E; [constructor|]. constructor; [apply (IHS (P ++ [a])); rewrite <- app_assoc; exact E|]. rewrite Forall_forall. intros b Ib. assert (tied a b) as [T1 T2].
        { rewrite E in ST. apply strong_app in ST as [_ [ST _]]. inversion ST as [|? ? _ Fo]; subst. rewrite Forall_forall in Fo. auto. }
        split; [exact T1|]. intros Eab. apply GI. rewrite Her. apply filter_In. split; [apply YI, T2, Eab|]. unfold two, eqs. rewrite E, filter_app, app_length. cbn [filter]. assert (ev a x =? ev a x = true) as -> by lia. cbn [length].
        assert (In b (filter (fun c => ev c x =? ev a x) S)) as Ifb by (apply filter_In; split; [exact Ib|lia]). apply Nat.leb_le. destruct (filter _ S); [destruct Ifb|cbn [length]; lia]. }
      apply (Suf A []). reflexivity. }
    assert (SK : StronglySorted (fun a b => ev a x < ev b x) (filter (fun a => negb (gone a)) A)).
    { apply filter_sorted with (f := fun a => negb (gone a)) in SAg. revert SAg. apply strong_impl. intros a b Ia Ib [H1 H2]. apply filter_In in Ia as [_ Ka]. unfold before in H1. assert (ev a x <> ev b x) by (intros E; rewrite (H2 E) in Ka; discriminate). lia. }
    assert (Hcvx : forall w, In w cv -> px (n_pt w) = x /\ n_3 w = cz /\ exists a, In a A /\ yw w = ev a x).
    { intros w I. rewrite Hcv in I. apply in_map_iff in I as [y [<- Iy]]. destruct (derive_pt (mk_pt x y) (lastc cz (lts x y A)) (eqs x y A)) as [D1 D2]. unfold yw. rewrite D1, D2. split; [reflexivity|]. split; [reflexivity|]. rewrite Her in Iy. apply filter_In in Iy as [_ Iy]. unfold two in Iy. apply Nat.leb_le in Iy. destruct (eqs x y A) as [|a l] eqn:Eq; [cbn in Iy; lia|]. assert (In a (eqs x y A)) as Ia by (rewrite Eq; left; reflexivity). apply filter_In in Ia as [Ia1 Ia2]. exists a. split; [exact Ia1|cbn [py]; lia]. }
    assert (HeqG : forall y a, In a (eqs x y A) -> rise_ok a /\ ev a x = y) by (intros y a I; apply filter_In in I as [I1 I2]; split; [auto|lia]).
    assert (Hesum : forall g F, additive g -> esum g F cv = WE g F gone cz A).
    { intros g F Ag. unfold gone. rewrite <- (group_sum g F x A er SB Ner). rewrite Hcv. unfold esum. rewrite tot_map. apply tot_ext. intros y Iy. apply (derive_W g F x y _ _ Ag); [|apply HeqG]. apply filter_sorted, SB. }
    assert (Hosum : forall F, osum F o = - WE (keepz keep) F gone cz A).
    { intros F. unfold gone. rewrite <- (group_sum (keepz keep) F x A er SB Ner). rewrite Ho. clear - HeqG. induction er as [|y er IH]; [reflexivity|]. cbn [flat_map tot]. rewrite osum_app, IH, (group_osum F x y); [lia|apply HeqG]. }
    set (Q0 := filter (fun p => negb (px p =? x)) Q).
    eapply good_bind; [apply (search_good x (ps ++ Q0) (marks gone A) None)|].
    - (* the neighbours that stay *)
      assert (Suf : forall S P, A = P ++ S -> chain (guard x0 Q) S -> chain (fun a b => snd a = true \/ guard x (ps ++ Q0) (fst a) (fst b)) (marks gone S)).
      { induction S as [|a S IHS]; intros P E CS; [exact I|]. destruct CS as [CS1 CS2]. assert (E' : A = (P ++ [a]) ++ S) by (rewrite <- app_assoc; exact E). specialize (IHS _ E' CS2). cbn [marks]. destruct (gone a) eqn:Ga; [exact IHS|]. cbn [chain]. split; [|exact IHS].
        destruct S as [|b S]; [exact I|]. destruct (gone b) eqn:Gb; [cbn [marks]; destruct (if gone b then _ else _); [exact I|left; reflexivity]|]. cbn [marks]. rewrite Gb. cbn [fst snd]. right.
        assert (ev a x < ev b x) as Lab. { rewrite E in SAg. apply strong_app in SAg as [_ [SS _]]. inversion SS as [|? ? _ Fo]; subst. inversion Fo as [|? ? [B1 B2] _]; subst. unfold before in B1. assert (ev a x <> ev b x) by (intros Ee; rewrite (B2 Ee) in Ga; discriminate). lia. }
        destruct (in_dec Z.eq_dec (ev a x) ys) as [Iy|Ny].
        - assert (P0 : forall c, In c P -> ev c x < ev a x).
          { intros c Ic. rewrite E in SAg. apply strong_app in SAg as [_ [_ SS]]. destruct (SS c a Ic (or_introl eq_refl)) as [B1 B2]. unfold before in B1. assert (ev c x <> ev a x) by (intros Ee; specialize (B2 Ee); rewrite (Gg c a Ee) in B2; congruence). lia. }
          assert (SS : forall c, In c S -> ev a x < ev c x).
          { intros c Ic. rewrite E in SB. apply strong_app in SB as [_ [SB1 _]]. inversion SB1 as [|? ? SB2 _]; subst. inversion SB2 as [|? ? _ Fo]; subst. rewrite Forall_forall in Fo. specialize (Fo c Ic). unfold before in Fo. lia. }
          assert (Eq : eqs x (ev a x) A = [a]).
          { unfold eqs. rewrite E, filter_app. cbn [filter]. assert (ev a x =? ev a x = true) as -> by lia. assert (ev b x =? ev a x = false) as -> by lia. rewrite (filter_none _ P), (filter_none _ S); [reflexivity| |]; intros c Ic; [specialize (SS c Ic)|specialize (P0 c Ic)]; lia. }
          assert (Eg : hd_error (gts x (ev a x) A) = Some b).
          { unfold gts. rewrite E, filter_app. cbn [filter]. assert (ev a x <? ev a x = false) as -> by lia. assert (ev a x <? ev b x = true) as -> by lia. rewrite (filter_none _ P); [reflexivity|]. intros c Ic. specialize (P0 c Ic). lia. }
          specialize (Hlk _ a Iy Eq). rewrite Eg in Hlk. cbn [link] in Hlk. eapply guard_incl; [|exact Hlk]. intros p I. apply in_or_app. left. exact I.
        - eapply guard_incl; [|apply (guard_later x0 x Q a b (Z.le_refl _) QX CS1)]; [intros p I; apply in_or_app; right; exact I|]. intros I. apply Ny, YI, I. }
      apply (Suf A []); [reflexivity|exact GA].
    - rewrite marks_map. exact SK.
    - rewrite marks_map. intros a I. apply filter_In in I as [I _]. auto.
    - intros p E. discriminate.
    - intros ps' [C1 C2]. cbn [good].
      assert (Hds : forall g P, additive g -> g (ds P cv) = WE g (onl x P) gone cz A) by (intros g P Ag; rewrite (ds_esum g x P cv Ag), (Hesum g _ Ag); [reflexivity|]; intros w I; destruct (Hcvx w I) as [W1 [W2 _]]; auto).
      exists gone, (annl gone cz A). rewrite marks_map, annl_map in *. split; [reflexivity|]. split.
      { intros b I. apply (in_map snd) in I. rewrite annl_map in I. apply filter_In in I as [I _]. exact I. }
      split; [exact SK|]. split.
      { intros s Hs. apply (walk_annl x gone cv A) with (A1 := []); auto. intros g [G0 _]. cbn [WE]. lia. }
      split; [exact Hcvx|]. split.
      { rewrite Hcv. apply strong_map. rewrite Her. apply filter_sorted with (f := two x A) in YS. revert YS. apply strong_impl. intros a b _ _ L. unfold yw. rewrite (proj1 (derive_pt _ _ _)), (proj1 (derive_pt (mk_pt x b) _ _)). exact L. }
      split; [exact C1|]. split.
      { apply aheads_app; [exact C2|]. apply aheads_app; [exact Hps|]. intros p I. apply filter_In in I as [I1 I2]. specialize (QX p I1). lia. }
      split. { rewrite Ho. intros q I. apply in_flat_map in I as [y [_ I]]. exact (group_at x y _ _ q I). }
      split; [intros g F Ag; rewrite annl_WB, (W_split g F gone), (Hesum g F Ag); lia|]. split; [intros F; rewrite annl_WB, (W_split _ F gone), Hosum; lia|]. split.
      + constructor; [exact SB|intros a b _ _; apply Gg|reflexivity| |exact Hds]. intros a Ia Ga. apply GI in Ga. exists (derive (mk_pt x (ev a x)) (lastc cz (lts x (ev a x) A)) (eqs x (ev a x) A)). split; [rewrite Hcv; apply in_map_iff; exists (ev a x); auto|]. unfold yw. rewrite (proj1 (derive_pt _ _ _)). reflexivity.
      + intros H. rewrite Ho. clear - HeqG. induction er as [|y er IH]; [reflexivity|]. cbn [flat_map]. rewrite vsum_app, IH, group_vsum; [reflexivity|]. intros a I. apply (HeqG y a I).
  Qed.
End scan.
