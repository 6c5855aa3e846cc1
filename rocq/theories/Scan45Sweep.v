(* The sweep for 45-degree polygons: all columns. *)
From Verif Require Import Base Units Scan90Spec Poly90Spec Poly90Model Poly90Proofs ArbSpec ArbSums ArbOrder Ins45Spec Ins45Model Scan45Model Scan45Base Scan45Step Scan45Process Scan45Advance.
From Coq Require Import Sorting.Sorted Reals Lra.
Local Open Scope Z_scope.

Lemma merge_sum f cv : forall ins, tot f (merge_cross cv ins) = tot f cv + tot f ins.
Proof.
  induction cv as [|c cv IH]; intros ins; cbn [merge_cross tot]; [lia|]. destruct (span _ ins) as [a b] eqn:S. apply span_spec in S as [-> _]. rewrite tot_app. cbn [tot]. rewrite IH, tot_app. lia.
Qed.
Lemma merge_in cv : forall ins w, In w (merge_cross cv ins) <-> In w cv \/ In w ins.
Proof.
  induction cv as [|c cv IH]; intros ins w; cbn [merge_cross]; [cbn; tauto|]. destruct (span _ ins) as [a b] eqn:S. apply span_spec in S as [-> _]. rewrite !in_app_iff. cbn [In]. rewrite IH. tauto.
Qed.
Lemma merge_sorted cv : forall ins, StronglySorted (fun a b => yw a < yw b) cv -> StronglySorted (fun a b => yw a <= yw b) ins -> StronglySorted (fun a b => yw a <= yw b) (merge_cross cv ins).
Proof.
  induction cv as [|c cv IH]; intros ins S1 S2; cbn [merge_cross]; [exact S2|]. destruct (span _ ins) as [a b] eqn:S. apply span_spec in S as [-> [Ha Hb]]. apply strong_app in S2 as [Sa [Sb Sab]]. inversion S1 as [|? ? S1' F1]; subst. rewrite Forall_forall in F1.
  assert (Hb' : forall w, In w b -> yw c <= yw w).
  { destruct b as [|w0 b]; [intros w []|]. inversion Sb as [|? ? _ Fb]; subst. rewrite Forall_forall in Fb. intros w [<-|I]; [unfold yw; lia|]. specialize (Fb w I). unfold yw in *. lia. }
  apply strong_app. split; [exact Sa|]. split.
  - constructor; [apply IH; assumption|]. rewrite Forall_forall. intros w I. apply merge_in in I as [I|I]; [specialize (F1 w I); lia|auto].
  - intros u w U [<-|I]; [specialize (Ha u U); unfold yw; lia|]. apply merge_in in I as [I|I]; [specialize (F1 w I); specialize (Ha u U); unfold yw in *; lia|]. apply Sab; assumption.
Qed.
Lemma csum_merge f cv ins : csum f (merge_cross cv ins) = cadd (csum f cv) (csum f ins).
Proof.
  assert (H : forall g, additive g -> g (csum f (merge_cross cv ins)) = g (cadd (csum f cv) (csum f ins))) by (intros g Ag; destruct (Ag) as [_ [A1 _]]; rewrite A1, !(csum_g g f _ Ag), merge_sum; reflexivity).
  apply cnt2_eq; apply H; [apply fst_additive|apply snd_additive].
Qed.
Lemma walk_ds x B evs evs' : (forall P, ds P evs = ds P evs') -> forall s l, walk x s l B evs -> walk x s l B evs'.
Proof. intros H. induction B as [|[pre e] B IH]; intros s l Wk; [exact I|]. cbn [walk] in *. rewrite <- !H. destruct Wk as [W1 [W2 W3]]. auto. Qed.

(* ---------- the height of the elements ---------- *)
Local Open Scope R_scope.
Definition hgt (rb : Z * Z) (t : R) : R := IZR (fst rb) * t + IZR (snd rb).
Definition Fd (t y : R) (rb : Z * Z) : Z := if rltb (hgt rb t) y then 1%Z else 0%Z.
Lemma hgt_ev e X t : hgt (line e) t = IZR (ev e X) + IZR (e_rise e) * (t - IZR X).
Proof. unfold hgt, line, ev. cbn [fst snd]. rewrite plus_IZR, mult_IZR, !minus_IZR, mult_IZR. ring. Qed.
Lemma hgt_le x nx a b t : (ev a x <= ev b x)%Z -> (ev a nx <= ev b nx)%Z -> IZR x <= t -> t <= IZR nx -> hgt (line a) t <= hgt (line b) t.
Proof.
  intros H1 H2 T1 T2. apply IZR_le in H1, H2. destruct (Z_le_gt_dec (e_rise a) (e_rise b)) as [L|L].
  - rewrite (hgt_ev a x), (hgt_ev b x). apply IZR_le in L. nra.
  - rewrite (hgt_ev a nx), (hgt_ev b nx). assert (e_rise b <= e_rise a)%Z as L' by lia. apply IZR_le in L'. nra.
Qed.
Local Close Scope R_scope.
Lemma W_zero g F l : forall d, (forall e, In e l -> F (line e) = 0) -> W g F d l = 0.
Proof. induction l as [|e l IH]; intros d H; [reflexivity|]. cbn [W]. rewrite (H e (or_introl eq_refl)), IH; [lia|]. intros a A. apply H. right. exact A. Qed.
Lemma tele t y L : StronglySorted (fun a b => hgt (line a) t <= hgt (line b) t)%R L -> forall d, exists c, forall g, W g (Fd t y) d L = g c - g d.
Proof.
  induction 1 as [|e L S IH Fo]; intros d; [exists d; intros g; cbn [W]; lia|]. rewrite Forall_forall in Fo. destruct (rltb (hgt (line e) t) y) eqn:E.
  - destruct (IH (e_cnt e)) as [c Hc]. exists c. intros g. cbn [W]. rewrite Hc. unfold Fd. rewrite E. lia.
  - exists d. intros g. rewrite W_zero; [lia|]. intros a A. unfold Fd. assert (rltb (hgt (line a) t) y = false) as ->; [|reflexivity]. destruct A as [<-|A]; [exact E|]. specialize (Fo a A). apply not_true_iff_false. intros B. apply rltb_iff in B. apply not_true_iff_false in E. apply E. apply rltb_iff. lra.
Qed.
(* one line *)
Definition ind (ln rb : Z * Z) : Z := if (fst rb =? fst ln) && (snd rb =? snd ln) then 1 else 0.
Lemma ind_same ln : ind ln ln = 1.
Proof. unfold ind. rewrite !Z.eqb_refl. reflexivity. Qed.
Lemma ind_other ln rb : rb <> ln -> ind ln rb = 0.
Proof. intros N. unfold ind. destruct rb as [r b], ln as [r' b']. cbn [fst snd]. destruct ((r =? r') && (b =? b')) eqn:E; [|reflexivity]. exfalso. apply N. f_equal; lia. Qed.
Lemma after_line x a b : after x a b -> line a <> line b.
Proof. unfold after. intros H E. assert (e_rise a = e_rise b) by (unfold line in E; congruence). assert (ev a x = ev b x); [|lia]. assert (Hx : forall e, ev e x = fst (line e) * x + snd (line e)) by (intros e; unfold ev, line; cbn [fst snd]; ring). rewrite !Hx, E. reflexivity. Qed.
Lemma zero_counts x L : StronglySorted (after x) L -> (forall g ln, additive g -> W g (ind ln) cz L = 0) -> forall e, In e L -> e_cnt e = cz.
Proof.
  induction 1 as [|e L S IH Fo]; intros H; [intros e []|]. rewrite Forall_forall in Fo.
  assert (E : e_cnt e = cz).
  { assert (Q : forall g, additive g -> g (e_cnt e) = g cz).
    { intros g Ag. specialize (H g (line e) Ag). cbn [W] in H. rewrite ind_same, W_zero in H; [lia|]. intros a A. apply ind_other. intros X. apply (after_line x e a (Fo a A)). congruence. }
    apply cnt2_eq; apply Q; [apply fst_additive|apply snd_additive]. }
  intros a [<-|A]; [exact E|]. apply IH; [|exact A]. intros g ln Ag. specialize (H g ln Ag). cbn [W] in H. rewrite E in H. lia.
Qed.
Lemma W_cz g F L : forall d, d = cz -> (forall e, In e L -> e_cnt e = cz) -> W g F d L = 0.
Proof. induction L as [|e L IH]; intros d -> H; [reflexivity|]. cbn [W]. rewrite (H e (or_introl eq_refl)). rewrite IH; [lia|reflexivity|]. intros a A. apply H. right. exact A. Qed.

Definition ev_le (a b : event) : Prop := px (n_pt a) < px (n_pt b) \/ px (n_pt a) = px (n_pt b) /\ py (n_pt a) <= py (n_pt b).
Definition edep (g : cnt2 -> Z) (t y : R) (l : list event) : Z := tot (fun w => if rleb (IZR (px (n_pt w))) t then esum1 g (Fd t y) w else 0) l.
Definition odep (t y : R) (l : list out45) : Z := tot (fun q => if rleb (IZR (px (fst q))) t then osum1 (Fd t y) q else 0) l.
Lemma edep_all g t y l : (forall w, In w l -> IZR (px (n_pt w)) <= t)%R -> edep g t y l = esum g (Fd t y) l.
Proof. intros H. apply tot_ext. intros w I. specialize (H w I). apply rleb_iff in H. rewrite H. reflexivity. Qed.
Lemma edep_none g t y l : (forall w, In w l -> t < IZR (px (n_pt w)))%R -> edep g t y l = 0.
Proof. intros H. unfold edep. apply tot_zero. intros w I. specialize (H w I). destruct (rleb (IZR (px (n_pt w))) t) eqn:E; [apply rleb_iff in E; exfalso; lra|reflexivity]. Qed.
Lemma odep_all t y l : (forall w, In w l -> IZR (px (fst w)) <= t)%R -> odep t y l = osum (Fd t y) l.
Proof. intros H. apply tot_ext. intros w I. specialize (H w I). apply rleb_iff in H. rewrite H. reflexivity. Qed.
Lemma odep_none t y l : (forall w, In w l -> t < IZR (px (fst w)))%R -> odep t y l = 0.
Proof. intros H. unfold odep. apply tot_zero. intros w I. specialize (H w I). destruct (rleb (IZR (px (fst w))) t) eqn:E; [apply rleb_iff in E; exfalso; lra|reflexivity]. Qed.
Lemma esum_app g F a b : esum g F (a ++ b) = esum g F a + esum g F b.
Proof. apply tot_app. Qed.

Section scan.
  Context (keep : cnt2 -> bool) (keep0 : keep cz = false).
  Notation kz := (keepz keep).
  Record st (x : Z) (L : list elem) (Q : list point) : Prop := {
    st_col : column_ok x L; st_guard : chain (guard x Q) L; st_q : aheads x Q }.

  Definition stop (Q : list point) (w : event) : Z := match q_min Q with Some m => Z.min (px (n_pt w)) m | None => px (n_pt w) end.
  Lemma column_good x0 x L Q col : st x0 L Q -> x0 < x -> (forall p, In p Q -> x <= px p) ->
    (forall w, In w col -> px (n_pt w) = x /\ delta w = cz) -> StronglySorted (fun a b => yw a <= yw b) col -> csum n_3 col = cz ->
    good (advance keep x L Q) (fun t => let '(o1, cv, K, Q1) := t in
      good (process keep (length (merge_cross cv col) + length K + 1) x K cz (mk_pt 0 0) None (merge_cross cv col)) (fun t => let '(L1, ps, o2) := t in
        st x L1 (ps ++ Q1) /\ at_x x (o1 ++ o2) /\ (forall g F, additive g -> W g F cz L1 = W g F cz L + esum g F col) /\ (forall F, osum F (o1 ++ o2) = W kz F cz L1 - W kz F cz L) /\
        (forall H, vsum H (o1 ++ o2) = osum (onh x H) (o1 ++ o2)) /\ vsum (fun _ => 1) (o1 ++ o2) = 0)).
  Proof.
    intros [[S1 S2] S3 S4] X0 QX Hcol Scol Vcol. eapply good_impl; [apply (advance_good keep x0 x L Q X0); [|exact S2|exact S3|exact QX]|].
    { intros a A. apply (S1 a A). }
    intros [[[o1 cv] K] Q1] [gone [B [-> [BL [SK [Wk [Hcv [Scv [GK [AQ [AO [IN [OUT [VI VO]]]]]]]]]]]]]].
    set (evs := merge_cross cv col).
    set (s := Z.min (fold_right (fun a m => Z.min (ev a x - 1) m) 0 L) (fold_right (fun w m => Z.min (yw w - 1) m) 0 evs)).
    assert (Hs1 : forall a, In a L -> s < ev a x).
    { assert (H : forall a, In a L -> fold_right (fun a m => Z.min (ev a x - 1) m) 0 L < ev a x) by (clear; induction L as [|b L IH]; intros a HA; [destruct HA|]; destruct HA as [<-|A]; cbn [fold_right]; [lia|specialize (IH a A); lia]). intros a A. specialize (H a A). unfold s. lia. }
    assert (Hs2 : forall w, In w evs -> s < yw w).
    { assert (H : forall w, In w evs -> fold_right (fun w m => Z.min (yw w - 1) m) 0 evs < yw w) by (clear; induction evs as [|b L IH]; intros a HA; [destruct HA|]; destruct HA as [<-|A]; cbn [fold_right]; [lia|specialize (IH a A); lia]). intros a A. specialize (H a A). unfold s. lia. }
    assert (DSE : forall P, ds P evs = ds P cv).
    { intros P. unfold ds, evs. rewrite csum_merge. rewrite (csum_zero _ col); [rewrite cadd_0_r; reflexivity|]. intros w I. destruct (Hcol w I) as [_ ->]. destruct (P (yw w)); reflexivity. }
    eapply good_impl; [apply (process_good keep _ x s [] B cz cz (mk_pt 0 0) None evs Q1 gone L)|].
    - rewrite map_length, Nat.add_1_r. apply Nat.lt_succ_diag_r.
    - constructor.
      + intros a [].
      + intros b I. destruct (S1 _ (BL b I)). split; [assumption|lia].
      + constructor.
      + exact SK.
      + intros a b [].
      + intros w I. apply merge_in in I as [I|I]; [apply (Hcv w I)|apply (Hcol w I)].
      + apply merge_sorted; assumption.
      + intros a w [].
      + intros b I. apply Hs1, BL, I.
      + exact Hs2.
      + apply (walk_ds x B cv evs (fun P => eq_sym (DSE P))), Wk, Hs1.
      + reflexivity.
      + unfold evs. rewrite csum_merge, Vcol, (csum_zero n_3 cv); [reflexivity|]. intros w I. apply (Hcv w I).
    - destruct VI as [V1 V2 V3 V4 V5]. constructor; [exact V1|exact V2|exact V3| |intros g P Ag; rewrite DSE; apply V5, Ag]. intros a Ia Ga. destruct (V4 a Ia Ga) as [w [Iw Ew]]. exists w. split; [apply merge_in; left; exact Iw|exact Ew].
    - exact GK.
    - intros N. contradiction.
    - intros [[L1 ps] o2] [T1 [T2 [T3 [T4 [T5 [T6 [T7 T8]]]]]]]. assert (OO : forall F, osum F (o1 ++ o2) = W kz F cz L1 - W kz F cz L) by (intros F; rewrite osum_app, T6; cbn [W]; specialize (OUT F); lia). split; [constructor; [exact T1|exact T4|apply aheads_app; assumption]|]. split; [apply at_x_app; assumption|]. split.
      + intros g F Ag. rewrite (T5 g F Ag). cbn [W]. rewrite <- (IN g F Ag). unfold esum, evs. rewrite merge_sum. lia.
      + split; [exact OO|]. split; [|rewrite vsum_app, VO, T8; reflexivity]. intros H. rewrite OO, vsum_app, VO, T7. rewrite cadd_0_r. cbn [W]. lia.
  Qed.

  Lemma st_heights x nx L Q t : st x L Q -> x < nx -> (forall p, In p Q -> nx <= px p) -> (IZR x <= t)%R -> (t <= IZR nx)%R -> StronglySorted (fun a b => hgt (line a) t <= hgt (line b) t)%R L.
  Proof.
    intros [[S1 S2] S3 S4] X QX T1 T2.
    assert (SB : StronglySorted (before nx) L).
    { apply chain_strong; [intros a b c; apply before_trans|]. pose proof (strong_chain _ _ S2) as C. pose proof (chain_and _ _ _ C S3) as C'. revert C'. apply chain_impl. intros a b Ia Ib [C1 C2]. apply (to_before x nx Q a b); auto; [apply (S1 a Ia)|apply (S1 b Ib)]. }
    assert (Both : StronglySorted (fun a b => after x a b /\ before nx a b) L).
    { clear - S2 SB. induction L as [|a L IH]; [constructor|]. inversion S2; subst. inversion SB; subst. constructor; [auto|]. rewrite Forall_forall in *. auto. }
    revert Both. apply strong_impl. intros a b _ _ [H1 H2]. apply (hgt_le x nx); [unfold after in H1; lia|unfold before in H2; lia|exact T1|exact T2].
  Qed.

  Definition atx (X : Z) (o : list out45) : list out45 := filter (fun q => px (fst q) =? X) o.
  (* at every point the vertical count is the sum of the others; they cancel in every column *)
  Definition tidy (o : list out45) : Prop := forall X, (forall H, vsum H (atx X o) = osum (onh X H) (atx X o)) /\ vsum (fun _ => 1) (atx X o) = 0.
  Lemma tidy_app a b : tidy a -> tidy b -> tidy (a ++ b).
  Proof.
    intros A B X. destruct (A X) as [A1 A2], (B X) as [B1 B2]. assert (E : atx X (a ++ b) = atx X a ++ atx X b) by apply filter_app.
    rewrite E. split; [intros H; rewrite vsum_app, osum_app, A1, B1; reflexivity|rewrite vsum_app, A2, B2; reflexivity].
  Qed.
  Lemma tidy_column x o : at_x x o -> (forall H, vsum H o = osum (onh x H) o) -> vsum (fun _ => 1) o = 0 -> tidy o.
  Proof.
    intros A B C X. unfold atx. destruct (Z.eq_dec X x) as [->|N].
    - rewrite filter_all by (intros q I; rewrite (A q I); apply Z.eqb_refl). auto.
    - rewrite filter_none by (intros q I; rewrite (A q I); lia). split; reflexivity.
  Qed.

  Lemma scan_good fuel : forall x L Q ins, st x L Q -> StronglySorted ev_le ins -> (forall w, In w ins -> x < px (n_pt w) /\ delta w = cz) ->
    (forall X, csum n_3 (filter (fun w => px (n_pt w) =? X) ins) = cz) -> (forall g ln, additive g -> W g (ind ln) cz L + esum g (ind ln) ins = 0) -> (forall w, In w ins -> px (n_pt w) - x <= Z.of_nat fuel) ->
    good (scan keep fuel L Q ins) (fun o => (forall q, In q o -> x < px (fst q)) /\
      (forall t y, (IZR x <= t)%R -> W kz (Fd t y) cz L + odep t y o = kz (W fst (Fd t y) cz L + edep fst t y ins, W snd (Fd t y) cz L + edep snd t y ins)) /\
      (forall ln, W kz (ind ln) cz L + osum (ind ln) o = 0) /\ tidy o).
  Proof.
    assert (KZ : kz cz = 0) by (unfold keepz; rewrite keep0; reflexivity).
    induction fuel as [|fuel IH]; intros x L Q ins ST SI HI HC HL HF; destruct ins as [|w ins].
    1, 3: cbn [scan good]; assert (Z0 : forall e, In e L -> e_cnt e = cz) by (apply (zero_counts x L); [apply ST|]; intros g ln Ag; specialize (HL g ln Ag); unfold esum in HL; cbn [tot] in HL; lia); split; [intros q []|]; split; [intros t y T; unfold odep, edep; cbn [tot]; rewrite !W_cz by auto; cbn [Z.add]; fold cz; rewrite KZ; reflexivity|]; split; [intros ln; unfold osum; cbn [tot]; rewrite W_cz by auto; reflexivity|intros X; split; reflexivity].
    { specialize (HF w (or_introl eq_refl)). specialize (HI w (or_introl eq_refl)). lia. }
    cbn [scan]. fold (stop Q w). set (nx := stop Q w).
    set (W0 := w :: ins) in *.
    assert (Hwle : forall u, In u W0 -> px (n_pt w) <= px (n_pt u)).
    { intros u [<-|U]; [lia|]. inversion SI as [|? ? _ Fo]; subst. rewrite Forall_forall in Fo. specialize (Fo u U). unfold ev_le in Fo. lia. }
    assert (NX : x < nx /\ nx <= px (n_pt w) /\ forall p, In p Q -> nx <= px p).
    { unfold nx, stop. pose proof (q_min_le Q) as QM. destruct (HI w (or_introl eq_refl)) as [Hw _]. destruct (q_min Q) as [m|].
      - destruct QM as [Q1 [p [Q2 Q3]]]. pose proof (st_q x L Q ST p Q2). split; [lia|]. split; [lia|]. intros q Iq. specialize (Q1 q Iq). lia.
      - subst Q. split; [lia|]. split; [lia|]. intros p []. }
    destruct NX as [N1 [N2 N3]].
    set (cr := if nx =? px (n_pt w) then span (fun u => px (n_pt u) =? nx) W0 else ([], W0)).
    assert (CR : exists col rest, cr = (col, rest) /\ W0 = col ++ rest /\ (forall u, In u col -> px (n_pt u) = nx) /\ (forall u, In u rest -> nx < px (n_pt u))).
    { unfold cr. destruct (nx =? px (n_pt w)) eqn:E.
      - destruct (span (fun u => px (n_pt u) =? nx) W0) as [col rest] eqn:S. exists col, rest. split; [reflexivity|]. apply span_spec in S as [S1 [S2 S3]]. split; [exact S1|]. split; [intros u U; specialize (S2 u U); lia|].
        destruct rest as [|r rest]; [intros u []|]. assert (In r W0) as Ir by (rewrite S1; apply in_or_app; right; left; reflexivity). specialize (Hwle r Ir). rewrite S1 in SI. apply strong_app in SI as [_ [SI _]]. inversion SI as [|? ? _ Fo]; subst. rewrite Forall_forall in Fo. intros u [<-|U]; [lia|]. specialize (Fo u U). unfold ev_le in Fo. lia.
      - exists [], W0. split; [reflexivity|]. split; [reflexivity|]. split; [intros u []|]. intros u U. specialize (Hwle u U). lia. }
    destruct CR as [col [rest [Ecr [EW [Hcol Hrest]]]]].
    assert (SI' := SI). rewrite EW in SI'. apply strong_app in SI' as [SC [SR _]].
    assert (Scol : StronglySorted (fun a b => yw a <= yw b) col).
    { revert SC. apply strong_impl. intros a b Ia Ib. unfold ev_le, yw. rewrite (Hcol a Ia), (Hcol b Ib). lia. }
    assert (IC : forall u, In u col -> In u W0) by (intros u U; rewrite EW; apply in_or_app; left; exact U). assert (IR : forall u, In u rest -> In u W0) by (intros u U; rewrite EW; apply in_or_app; right; exact U).
    assert (Vcol : csum n_3 col = cz).
    { specialize (HC nx). rewrite EW, filter_app, filter_all, filter_none, app_nil_r in HC; [exact HC| |]; intros u U; [specialize (Hrest u U); lia|specialize (Hcol u U); lia]. }
    eapply good_bind; [apply (column_good x nx L Q col ST N1 N3)|]; [intros u U; split; [auto|apply (HI u (IC u U))]|exact Scol|exact Vcol|].
    intros [[[o1 cv] K] Q1] GP. fold cr. rewrite Ecr. eapply good_bind; [exact GP|]. intros [[L1 ps] o2] [ST1 [AT [IN [OUT [BA BV]]]]].
    eapply good_bind; [apply (IH nx L1 (ps ++ Q1) rest ST1 SR)|].
    - intros u U. split; [auto|apply (HI u (IR u U))].
    - intros X. specialize (HC X). rewrite EW, filter_app, csum_app in HC. destruct (Z.eq_dec X nx) as [->|NE].
      + rewrite (filter_none _ rest); [reflexivity|]. intros u U. specialize (Hrest u U). lia.
      + rewrite (filter_none _ col) in HC by (intros u U; specialize (Hcol u U); lia). change (csum n_3 []) with cz in HC. rewrite cadd_0_l in HC. exact HC.
    - intros g ln Ag. rewrite (IN g _ Ag). specialize (HL g ln Ag). rewrite EW, esum_app in HL. lia.
    - intros u U. specialize (HF u (IR u U)). lia.
    - intros o3 [R1 [R2 [R3 R4]]]. cbn [good]. rewrite app_assoc. split; [|split; [|split]].
      + intros q I. apply in_app_or in I as [I|I]; [rewrite (AT q I); exact N1|specialize (R1 q I); lia].
      + intros t y T. destruct (Rle_lt_dec (IZR nx) t) as [TN|TN].
        * assert (Eo : odep t y ((o1 ++ o2) ++ o3) = osum (Fd t y) (o1 ++ o2) + odep t y o3).
          { unfold odep at 1. rewrite tot_app. fold (odep t y (o1 ++ o2)) (odep t y o3). rewrite odep_all; [reflexivity|]. intros q I. rewrite (AT q I). exact TN. }
          assert (Ee : forall g, edep g t y W0 = esum g (Fd t y) col + edep g t y rest).
          { intros g. rewrite EW. unfold edep at 1. rewrite tot_app. fold (edep g t y col) (edep g t y rest). rewrite edep_all; [reflexivity|]. intros u U. rewrite (Hcol u U). exact TN. }
          rewrite Eo, !Ee, OUT. specialize (R2 t y TN). rewrite (IN fst _ fst_additive), (IN snd _ snd_additive) in R2. rewrite !Z.add_assoc. lia.
        * rewrite odep_none, !edep_none.
          -- destruct (tele t y L (st_heights x nx L Q t ST N1 N3 T (Rlt_le _ _ TN)) cz) as [c Hc]. rewrite !Hc, KZ. cbn [fst snd cz]. rewrite !Z.sub_0_r, !Z.add_0_r. destruct c; reflexivity.
          -- intros u U. specialize (Hwle u U). eapply Rlt_le_trans; [exact TN|]. apply IZR_le. lia.
          -- intros u U. specialize (Hwle u U). eapply Rlt_le_trans; [exact TN|]. apply IZR_le. lia.
          -- intros q I. eapply Rlt_le_trans; [exact TN|]. apply IZR_le. apply in_app_or in I as [I|I]; [rewrite (AT q I); lia|specialize (R1 q I); lia].
      + intros ln. rewrite osum_app, OUT. specialize (R3 ln). lia.
      + apply tidy_app; [apply (tidy_column nx); assumption|exact R4].
  Qed.

  Theorem scan_all_good ins : StronglySorted ev_le ins -> (forall w, In w ins -> delta w = cz) -> (forall X, csum n_3 (filter (fun w => px (n_pt w) =? X) ins) = cz) -> (forall g ln, additive g -> esum g (ind ln) ins = 0) ->
    good (scan_all keep ins) (fun o => (forall t y, odep t y o = kz (edep fst t y ins, edep snd t y ins)) /\ (forall ln, osum (ind ln) o = 0) /\ tidy o).
  Proof.
    intros SI HD HC HL. assert (KZ : kz cz = 0) by (unfold keepz; rewrite keep0; reflexivity). destruct ins as [|w ins].
    - cbn [scan_all good]. split; [|split; [reflexivity|intros X; split; reflexivity]]. intros t y. unfold odep, edep. cbn [tot]. fold cz. rewrite KZ. reflexivity.
    - unfold scan_all. set (W0 := w :: ins) in *. set (fuel := Z.to_nat _).
      assert (Hwle : forall u, In u W0 -> px (n_pt w) <= px (n_pt u)).
      { intros u [<-|U]; [lia|]. inversion SI as [|? ? _ Fo]; subst. rewrite Forall_forall in Fo. specialize (Fo u U). unfold ev_le in Fo. lia. }
      assert (Hlast : forall u, In u W0 -> px (n_pt u) <= px (n_pt (last W0 w))).
      { assert (H : forall l d, StronglySorted ev_le l -> forall u, In u l -> px (n_pt u) <= px (n_pt (last l d))).
        { induction l as [|a l IHl]; intros d S u U; [destruct U|]. inversion S as [|? ? S1 Fo]; subst. rewrite Forall_forall in Fo. destruct l as [|b l]; [destruct U as [<-|[]]; cbn; lia|]. change (last (a :: b :: l) d) with (last (b :: l) d). destruct U as [<-|U]; [|apply IHl; assumption]. specialize (IHl d S1 b (or_introl eq_refl)). specialize (Fo b (or_introl eq_refl)). unfold ev_le in Fo. lia. }
        apply H, SI. }
      eapply good_impl; [apply (scan_good fuel (px (n_pt w) - 1) [] [] W0)|].
      + constructor; [split; [intros a []|constructor]|exact I|intros p []].
      + exact SI.
      + intros u U. split; [specialize (Hwle u U); lia|auto].
      + exact HC.
      + intros g ln Ag. cbn [W]. rewrite (HL g ln Ag). reflexivity.
      + intros u U. specialize (Hlast u U). specialize (Hwle u U). unfold fuel. lia.
      + intros o [R1 [R2 [R3 R4]]]. split; [|split; [intros ln; specialize (R3 ln); cbn [W] in R3; lia|exact R4]].
        intros t y. destruct (Rle_lt_dec (IZR (px (n_pt w) - 1)) t) as [T|T]; [specialize (R2 t y T); cbn [W] in R2; rewrite !Z.add_0_l in R2; exact R2|].
        rewrite odep_none, !edep_none; [fold cz; rewrite KZ; reflexivity| | |]; intros u U; (eapply Rlt_le_trans; [exact T|]; apply IZR_le); [specialize (Hwle u U); lia|specialize (Hwle u U); lia|specialize (R1 u U); lia].
  Qed.
End scan.
