(* form_rectangles writes exactly the slabs of the region. *)
From Verif Require Import Base Scan90Spec VertexLemmas Set90Spec Set90Model RectFormSpec RectFormModel
  RectFormLemmas RectFormEdge.

(* the data a polygon set holds after normalisation *)
Record clean_data (V : list vertex) : Prop := {
  cd_canon : canonical V;
  cd_closed : closed V;
  cd_01 : forall x y, cnt V x y = 0 \/ cnt V x y = 1 }.

Definition P_of (V : list vertex) (x y : Z) : Prop := 0 < cnt V x y.

(* facts about a rectangle that was started on the column s_ml *)
Definition started (V : list vertex) (cc : Z) (s : srect) : Prop :=
  (s_ml s < cc -> (forall x, s_ml s <= x < cc -> vrun (P_of V) x (s_lo s) (s_hi s)) /\
                  ~ vrun (P_of V) (s_ml s - 1) (s_lo s) (s_hi s)) /\
  (s_ml s = cc -> exists y, s_lo s - 1 <= y <= s_hi s /\ cnt V cc y <> cnt V (cc - 1) y).
Definition written (V : list vertex) (cc : Z) (s : srect) : Prop :=
  s_ml s < s_mh s <= cc /\ (forall x, s_ml s <= x < s_mh s -> vrun (P_of V) x (s_lo s) (s_hi s)) /\
  ~ vrun (P_of V) (s_ml s - 1) (s_lo s) (s_hi s) /\
  (exists y, s_lo s - 1 <= y <= s_hi s /\ cnt V (s_mh s) y <> cnt V (s_mh s - 1) y).

Record inv (V done rest : list vertex) (st : scan) : Prop := {
  i_split : V = done ++ rest;
  i_done : Forall (fun v => vx v <= sc_cc st) done;
  i_rest : Forall (fun v => sc_cc st <= vx v) rest;
  i_good : good st;
  i_01 : forall y, cnt done (sc_cc st) y = 0 \/ cnt done (sc_cc st) y = 1;
  i_cov : forall y, covers st y <-> cnt done (sc_cc st) y = 1;
  i_col : col_total done (sc_cc st) = 0;
  i_head : match rest with
           | [] => True
           | v :: _ => vx v = sc_cc st ->
               (forall y, vy v <= y -> cnt done (sc_cc st) y = cnt V (sc_cc st - 1) y) /\
               (sc_have st = true -> s_lo (sc_cur st) < vy v)
           end;
  i_scan : forall s, member st s -> started V (sc_cc st) s;
  i_out : forall s, In s (sc_out st) -> written V (sc_cc st) s;
  i_sum : forall x y, x < sc_cc st -> out_sum (sc_out st) x y + scan_sum (sc_data st) x y = cnt V x y }.

(* ---------- the members of a good state are the runs of the covered cells ---------- *)
Lemma member_run st s : good st -> member st s ->
  s_lo s < s_hi s /\ (forall y, s_lo s <= y < s_hi s -> covers st y) /\
  ~ covers st (s_lo s - 1) /\ ~ covers st (s_hi s).
Proof.
  intros G Hs. split; [exact (member_ne st s G Hs)|]. split; [intros y Hy; exists s; tauto|].
  split; intros [t [Ht By]]; destruct (member_apart st s t G Hs Ht) as [->|A]; try lia;
    unfold apart in A; pose proof (member_ne st s G Hs); lia.
Qed.

Lemma cnt_done_const done cc x y : Forall (fun v => vx v <= cc) done -> cc <= x -> cnt done x y = cnt done cc y.
Proof.
  intros H L. rewrite (cnt_right done cc y H). apply cnt_right.
  eapply Forall_impl; [|exact H]. intros v Hv. cbn beta in *. lia.
Qed.

Lemma scan_sum_sep S x y : sepset S -> (forall s, In s S -> s_ml s <= x) ->
  (exists s, In s S /\ s_lo s <= y < s_hi s) /\ scan_sum S x y = 1 \/
  (forall s, In s S -> ~ (s_lo s <= y < s_hi s)) /\ scan_sum S x y = 0.
Proof.
  intros H M. pose proof (ss_ne S H) as N. pose proof (ss_sep S H) as A. pose proof (sorted_nodup S (ss_sorted S H)) as ND.
  clear H. induction S as [|s S IH].
  - right. split; [intros s []|reflexivity].
  - inversion ND as [|? ? Nin ND']; subst. cbn [scan_sum].
    replace (s_ml s <=? x) with true by (specialize (M s (or_introl eq_refl)); lia). cbn [andb].
    assert (IH' : (exists s, In s S /\ s_lo s <= y < s_hi s) /\ scan_sum S x y = 1 \/
                  (forall s, In s S -> ~ (s_lo s <= y < s_hi s)) /\ scan_sum S x y = 0).
    { apply IH.
      - intros t Ht. apply M. right; exact Ht.
      - intros t Ht. apply N. right; exact Ht.
      - intros t u Ht Hu. apply A; right; assumption.
      - exact ND'. }
    destruct (inb (s_lo s) (s_hi s) y) eqn:E; unfold inb in E.
    + left. split; [exists s; split; [left; reflexivity|lia]|].
      destruct IH' as [[[t [Ht By]] _]|[_ ->]]; [|reflexivity]. exfalso.
      destruct (A s t (or_introl eq_refl) (or_intror Ht)) as [->|Q]; [exact (Nin Ht)|].
      unfold apart in Q. lia.
    + destruct IH' as [[[t [Ht By]] ->]|[Q ->]].
      * left. split; [exists t; split; [right; exact Ht|exact By]|reflexivity].
      * right. split; [|reflexivity]. intros t [<-|Ht]; [lia|exact (Q t Ht)].
Qed.
Lemma out_sum_right out cc x y : (forall s, In s out -> s_mh s <= cc) -> cc <= x -> out_sum out x y = 0.
Proof.
  intros H L. induction out as [|s out IH]; [reflexivity|]. cbn [out_sum].
  rewrite IH by (intros t Ht; apply H; right; exact Ht). unfold inb at 1.
  specialize (H s (or_introl eq_refl)). replace (x <? s_mh s) with false by lia. rewrite andb_false_r. reflexivity.
Qed.

(* ---------- going to the next column ---------- *)
Lemma next_column V done v rest st : clean_data V -> inv V done (v :: rest) st -> sc_cc st < vx v ->
  inv V done (v :: rest) (nextMajorCoordinate (vx v) st).
Proof.
  intros CD I L. pose proof (i_split _ _ _ _ I) as ES. pose proof (i_good _ _ _ _ I) as G.
  pose proof (i_done _ _ _ _ I) as HD. pose proof (i_rest _ _ _ _ I) as HR.
  pose proof (i_01 _ _ _ _ I) as H01. pose proof (i_cov _ _ _ _ I) as HC.
  pose proof (i_scan _ _ _ _ I) as HS. pose proof (i_out _ _ _ _ I) as HO. pose proof (i_sum _ _ _ _ I) as HSum.
  destruct st as [data have cur cc out]. cbn [sc_data sc_have sc_cur sc_cc sc_out] in *.
  unfold nextMajorCoordinate.
  set (data' := if have then set_insert cur data else data).
  set (st0 := mk_scan data have cur cc out) in *.
  assert (Sorted : StronglySorted canon_le (v :: rest)).
  { pose proof (proj2 (cd_canon V CD)) as Q. rewrite ES in Q. clear -Q.
    induction done as [|u done IH]; [exact Q|]. inversion Q; subst. apply IH; assumption. }
  assert (Rest : Forall (fun w => vx v <= vx w) (v :: rest)).
  { inversion Sorted as [|? ? _ F]; subst. constructor; [lia|]. eapply Forall_impl; [|exact F].
    intros w Hw. unfold canon_le, pos_lt in Hw. lia. }
  assert (Mid : forall x y, cc <= x < vx v -> cnt V x y = cnt done cc y).
  { intros x y Hx. rewrite ES, cnt_app. rewrite (cnt_left (v :: rest)).
    - rewrite (cnt_done_const done cc x y HD) by lia. lia.
    - eapply Forall_impl; [|exact Rest]. intros w Hw. cbn beta in *. lia. }
  assert (GS : sepset data) by exact (g_sep _ G).
  assert (Sep' : sepset data').
  { unfold data'. destruct have; [|exact (g_sep _ G)]. destruct (g_cur _ G eq_refl) as [Q1 [_ [_ Q2]]].
    apply sep_insert; [exact (g_sep _ G)|exact Q1|exact Q2]. }
  assert (In' : forall s, In s data' <-> member st0 s).
  { intros s. unfold data', member. cbn [st0 sc_data sc_have sc_cur]. destruct have.
    - rewrite (insert_in _ _ (ss_sorted _ GS)). tauto.
    - intuition congruence. }
  assert (Ml : forall s, In s data' -> s_ml s <= cc).
  { intros s Hs. apply In' in Hs. destruct Hs as [Hs|[Hh ->]]; [exact (g_ml _ G s Hs)|].
    destruct (g_cur _ G Hh) as [_ [Q _]]. cbn [st0 sc_cur sc_cc] in *. lia. }
  assert (Cov' : forall y, covers (mk_scan data' false cur (vx v) out) y <-> covers st0 y).
  { intros y. unfold covers. split; intros [s [Hs By]]; exists s; (split; [|exact By]).
    - destruct Hs as [Hs|[K _]]; [apply In', Hs|discriminate K].
    - left. apply In', Hs. }
  constructor; cbn [sc_data sc_have sc_cur sc_cc sc_out].
  - exact ES.
  - eapply Forall_impl; [|exact HD]. intros w Hw. cbn beta in *. lia.
  - exact Rest.
  - constructor; cbn [sc_data sc_have sc_cur sc_cc sc_out]; [exact Sep'| |discriminate].
    intros s Hs. specialize (Ml s Hs). lia.
  - intros y. rewrite (cnt_done_const done cc (vx v) y HD) by lia. apply H01.
  - intros y. rewrite Cov', HC, (cnt_done_const done cc (vx v) y HD) by lia. reflexivity.
  - assert (Z : forall l, Forall (fun w => vx w <= cc) l -> col_total l (vx v) = 0).
    { clear -L. induction l as [|w l IH]; intros H; [reflexivity|]. inversion H as [|? ? H1 H2]; subst. cbn [col_total].
      rewrite (IH H2). replace (vx w =? vx v) with false by lia. reflexivity. }
    apply Z, HD.
  - intros _. split; [|discriminate]. intros y Hy. rewrite (cnt_done_const done cc (vx v) y HD) by lia.
    symmetry. apply Mid. lia.
  - intros s Hs. destruct Hs as [Hs|[K _]]; [|discriminate K]. cbn [sc_data] in Hs.
    pose proof (Ml s Hs) as Ms. apply In' in Hs. destruct (HS s Hs) as [S1 S2].
    destruct (member_run st0 s G Hs) as [R1 [R2 [R3 R4]]].
    assert (Run : forall x, cc <= x < vx v -> vrun (P_of V) x (s_lo s) (s_hi s)).
    { intros x Hx. split; [exact R1|]. unfold P_of. rewrite !Mid by exact Hx. split; [|split].
      - intros y Hy. rewrite Mid by exact Hx. specialize (R2 y Hy). apply HC in R2. lia.
      - intros K. apply R3. apply HC. destruct (H01 (s_lo s - 1)); lia.
      - intros K. apply R4. apply HC. destruct (H01 (s_hi s)); lia. }
    split; [|lia]. intros _. destruct (Z.eq_dec (s_ml s) cc) as [E|E].
    + split; [intros x Hx; apply Run; lia|]. destruct (S2 E) as [y [By Dy]].
      assert (Rc : vrun (P_of V) cc (s_lo s) (s_hi s)) by (apply Run; lia).
      rewrite E. intros Rp. apply Dy. destruct Rc as [_ [C1 [C2 C3]]]. destruct Rp as [_ [D1 [D2 D3]]].
      unfold P_of in *. pose proof (cd_01 V CD cc y) as Q1. pose proof (cd_01 V CD (cc - 1) y) as Q2.
      destruct (Z.eq_dec y (s_lo s - 1)) as [->|N1]; [lia|].
      destruct (Z.eq_dec y (s_hi s)) as [->|N2]; [lia|].
      assert (By' : s_lo s <= y < s_hi s) by lia. specialize (C1 y By'). specialize (D1 y By'). lia.
    + assert (Lm : s_ml s < cc) by lia. destruct (S1 Lm) as [T1 T2]. split; [|exact T2].
      intros x Hx. destruct (Z_lt_ge_dec x cc) as [Q|Q]; [apply T1; lia|apply Run; lia].
  - intros s Hs. destruct (HO s Hs) as [T1 T2]. split; [lia|exact T2].
  - intros x y Hx. destruct (Z_lt_ge_dec x cc) as [Q|Q].
    + assert (E : scan_sum data' x y = scan_sum data x y).
      { unfold data'. destruct have; [|reflexivity]. apply scan_sum_insert. destruct (g_cur _ G eq_refl) as [_ [Q1 _]].
        cbn [st0 sc_cur sc_cc] in *. lia. }
      rewrite E. apply HSum. exact Q.
    + rewrite (out_sum_right out cc) by (try lia; intros s Hs; destruct (HO s Hs); lia).
      rewrite Mid by lia. assert (M2 : forall s, In s data' -> s_ml s <= x) by (intros s Hs; specialize (Ml s Hs); lia).
      destruct (scan_sum_sep data' x y Sep' M2) as [[[s [Hs By]] ->]|[N ->]].
      * symmetry. assert (K : covers st0 y) by (exists s; split; [apply In', Hs|exact By]). apply HC in K. lia.
      * destruct (H01 y) as [K|K]; [lia|]. exfalso. apply HC in K. destruct K as [s [Hs By]].
        apply (N s); [apply In', Hs|exact By].
Qed.

(* ---------- one edge ---------- *)
Lemma sorted_tail_suffix (done rest : list vertex) : StronglySorted canon_le (done ++ rest) -> StronglySorted canon_le rest.
Proof. induction done as [|u done IH]; intros Q; [exact Q|]. inversion Q; subst. apply IH; assumption. Qed.

(* count of the vertices at the first position of a canonical list *)
Lemma cnt_head v rest : canonical (v :: rest) -> exists k, 1 <= k /\
  cnt (v :: rest) (vx v) (vy v) = k * vc v /\
  (k = 1 -> forall w, In w rest -> pos_lt v w).
Proof.
  intros [U S]. inversion S as [|? ? _ F]; subst. clear S.
  assert (R : exists k, 0 <= k /\ cnt rest (vx v) (vy v) = k * vc v /\ (k = 0 -> forall w, In w rest -> pos_lt v w)).
  { clear U. induction rest as [|w rest IH].
    - exists 0. cbn [cnt]. repeat split; try lia. intros _ w [].
    - inversion F as [|? ? F1 F2]; subst. destruct (IH F2) as [k [K1 [K2 K3]]]. cbn [cnt]. rewrite K2.
      unfold canon_le, pos_lt in F1. destruct F1 as [F1|[E1 [E2 E3]]].
      + exists k. split; [exact K1|]. split.
        * destruct ((vx w <=? vx v) && (vy w <=? vy v)) eqn:E; [|lia]. exfalso. lia.
        * intros Q u [<-|Hu]; [exact F1|exact (K3 Q u Hu)].
      + exists (k + 1). split; [lia|]. split; [|lia].
        replace ((vx w <=? vx v) && (vy w <=? vy v)) with true by lia. lia. }
  destruct R as [k [K1 [K2 K3]]]. exists (k + 1). split; [lia|]. split; [|intros Q; apply K3; lia].
  cbn [cnt]. rewrite K2. replace ((vx v <=? vx v) && (vy v <=? vy v)) with true by lia. lia.
Qed.
Lemma cnt_strict rest x y : Forall (fun w => x < vx w \/ (vx w = x /\ y < vy w)) rest -> cnt rest x y = 0.
Proof.
  induction 1 as [|w rest H1 H2 IH]; [reflexivity|]. cbn [cnt]. rewrite IH.
  destruct ((vx w <=? x) && (vy w <=? y)) eqn:E; [lia|reflexivity].
Qed.

Lemma edge_facts V done v rest st : clean_data V -> inv V done (v :: rest) st -> sc_cc st = vx v ->
  exists w rest', rest = w :: rest' /\ vx w = vx v /\ vy v < vy w /\ vc w = - vc v /\ (vc v = 1 \/ vc v = -1) /\
    (forall y, vy v <= y < vy w -> cnt done (vx v) y = (1 - vc v) / 2 /\ cnt V (vx v) y = cnt done (vx v) y + vc v).
Proof.
  intros CD I Ecc. pose proof (i_split _ _ _ _ I) as ES. pose proof (i_01 _ _ _ _ I) as H01.
  pose proof (i_col _ _ _ _ I) as HCol. rewrite Ecc in *.
  pose proof (cd_canon V CD) as Can. pose proof (cd_closed V CD) as Cl. pose proof (cd_01 V CD) as V01.
  assert (CanR : canonical (v :: rest)).
  { destruct Can as [U S]. rewrite ES in U, S. split; [apply Forall_app in U; apply U|exact (sorted_tail_suffix _ _ S)]. }
  assert (Uv : vc v = 1 \/ vc v = -1) by (destruct CanR as [U _]; inversion U; assumption).
  assert (CV : forall y, cnt V (vx v) y = cnt done (vx v) y + cnt (v :: rest) (vx v) y) by (intros y; rewrite ES; apply cnt_app).
  destruct (cnt_head v rest CanR) as [k [K1 [K2 K3]]].
  assert (k = 1).
  { pose proof (CV (vy v)) as Q. rewrite K2 in Q. pose proof (V01 (vx v) (vy v)). pose proof (H01 (vy v)).
    destruct Uv as [E|E]; rewrite E in *; lia. }
  subst k. specialize (K3 eq_refl).
  (* the column is closed, so there is another vertex on it *)
  assert (CR : col_total (v :: rest) (vx v) = 0).
  { pose proof (proj1 Cl (vx v)) as Q. rewrite ES, col_total_app, HCol in Q. exact Q. }
  destruct rest as [|w rest'].
  { exfalso. cbn [col_total] in CR. rewrite Z.eqb_refl in CR. destruct Uv as [E|E]; rewrite E in *; lia. }
  assert (Wgt : pos_lt v w) by (apply K3; left; reflexivity).
  destruct CanR as [U S]. inversion S as [|? ? S2 F]; subst. inversion S2 as [|? ? _ F2]; subst.
  assert (Ew : vx w = vx v).
  { destruct (Z.eq_dec (vx w) (vx v)) as [E|E]; [exact E|]. exfalso.
    assert (Q : forall l, Forall (fun u => vx v < vx u) l -> col_total l (vx v) = 0).
    { clear. induction l as [|u l IH]; intros H; [reflexivity|]. inversion H as [|? ? H1 H2]; subst. cbn [col_total].
      rewrite (IH H2). replace (vx u =? vx v) with false by lia. reflexivity. }
    assert (Fw : Forall (fun u => vx v < vx u) (w :: rest')).
    { unfold pos_lt in Wgt. constructor; [lia|]. eapply Forall_impl; [|exact F2]. intros u Hu. unfold canon_le, pos_lt in Hu. lia. }
    cbn [col_total] in CR. fold (col_total (w :: rest') (vx v)) in CR. cbn [col_total] in CR.
    pose proof (Q _ Fw) as Q2. cbn [col_total] in Q2. rewrite Z.eqb_refl in CR. destruct Uv as [E1|E1]; rewrite E1 in *; lia. }
  assert (Lw : vy v < vy w) by (unfold pos_lt in Wgt; lia).
  exists w, rest'. split; [reflexivity|]. split; [exact Ew|]. split; [exact Lw|].
  assert (Edge : forall y, vy v <= y < vy w -> cnt (v :: w :: rest') (vx v) y = vc v).
  { intros y Hy. cbn [cnt]. fold (cnt (w :: rest') (vx v) y).
    change ((if (vx v <=? vx v) && (vy v <=? y) then vc v else 0) + cnt (w :: rest') (vx v) y = vc v).
    rewrite cnt_strict.
    - replace ((vx v <=? vx v) && (vy v <=? y)) with true by lia. lia.
    - constructor; [lia|]. eapply Forall_impl; [|exact F2]. intros u Hu. unfold canon_le, pos_lt in Hu. lia. }
  assert (CanW : canonical (w :: rest')) by (split; [inversion U; assumption|exact S2]).
  assert (Uw : vc w = 1 \/ vc w = -1) by (destruct CanW as [U2 _]; inversion U2; assumption).
  destruct (cnt_head w rest' CanW) as [m [M1 [M2 _]]].
  split.
  { pose proof (CV (vy w)) as Q.
    change (cnt (v :: w :: rest') (vx v) (vy w)) with
      ((if (vx v <=? vx v) && (vy v <=? vy w) then vc v else 0) + cnt (w :: rest') (vx v) (vy w)) in Q.
    rewrite <- Ew in Q at 5. rewrite M2 in Q. replace ((vx v <=? vx v) && (vy v <=? vy w)) with true in Q by lia.
    pose proof (V01 (vx v) (vy w)). pose proof (H01 (vy w)).
    destruct Uv as [E1|E1], Uw as [E2|E2]; rewrite E1, E2 in *; lia. }
  split; [exact Uv|].
  intros y Hy. pose proof (CV y) as Q. rewrite (Edge y Hy) in Q. split; [|exact Q].
  pose proof (V01 (vx v) y). pose proof (H01 y). destruct Uv as [E1|E1]; rewrite E1 in *.
  - replace ((1 - 1) / 2) with 0 by reflexivity. lia.
  - replace ((1 - -1) / 2) with 1 by reflexivity. lia.
Qed.

Lemma edge_step V done v w rest st : clean_data V -> inv V done (v :: w :: rest) st -> sc_cc st = vx v ->
  exists st', processEdge (vy v) (vy w) st = Some st' /\ inv V (done ++ [v; w]) rest st' /\
    sc_cc st' = sc_cc st /\ Z.abs (vc w) = 1.
Proof.
  intros CD I Ecc. destruct (edge_facts V done v (w :: rest) st CD I Ecc) as [w' [rest' [E [Ew [Lw [Ec [Uv Edge]]]]]]].
  injection E as <- <-.
  pose proof (i_split _ _ _ _ I) as ES. pose proof (i_good _ _ _ _ I) as G.
  pose proof (i_done _ _ _ _ I) as HD. pose proof (i_rest _ _ _ _ I) as HR.
  pose proof (i_01 _ _ _ _ I) as H01. pose proof (i_cov _ _ _ _ I) as HC.
  pose proof (i_scan _ _ _ _ I) as HS. pose proof (i_out _ _ _ _ I) as HO. pose proof (i_sum _ _ _ _ I) as HSum.
  pose proof (i_col _ _ _ _ I) as HCol. pose proof (i_head _ _ _ _ I) as HH. cbn beta iota in HH.
  rewrite Ecc in *. specialize (HH eq_refl). destruct HH as [Hahead Hcur].
  assert (K : (forall y, vy v <= y < vy w -> covers st y) \/ (forall y, vy v <= y < vy w -> ~ covers st y)).
  { destruct Uv as [E1|E1]; rewrite E1 in Edge.
    - right. intros y Hy C. apply HC in C. destruct (Edge y Hy) as [Q _]. change ((1 - 1) / 2) with 0 in Q. lia.
    - left. intros y Hy. apply HC. destruct (Edge y Hy) as [Q _]. exact Q. }
  destruct (processEdge_spec (vy v) (vy w) st G Lw K Hcur) as [st' [E P]].
  exists st'. split; [exact E|].
  assert (Cc' : sc_cc st' = vx v) by (rewrite (p_cc _ _ _ _ P); exact Ecc).
  assert (Q2 : forall y, cnt (done ++ [v; w]) (vx v) y =
                         cnt done (vx v) y + (if (vy v <=? y) && (y <? vy w) then vc v else 0)).
  { intros y. rewrite cnt_app. cbn [cnt]. rewrite Ew, Z.leb_refl. cbn [andb].
    destruct (Z.leb_spec (vy v) y), (Z.leb_spec (vy w) y), (Z.ltb_spec y (vy w)); cbn [andb]; lia. }
  assert (New01 : forall y, cnt (done ++ [v; w]) (vx v) y = 0 \/ cnt (done ++ [v; w]) (vx v) y = 1).
  { intros y. rewrite Q2. destruct ((vy v <=? y) && (y <? vy w)) eqn:B.
    - assert (By : vy v <= y < vy w) by lia. destruct (Edge y By) as [W1 W2].
      pose proof (cd_01 V CD (vx v) y). lia.
    - pose proof (H01 y). lia. }
  assert (NewCov : forall y, covers st' y <-> cnt (done ++ [v; w]) (vx v) y = 1).
  { intros y. rewrite (p_cov _ _ _ _ P), Q2. destruct ((vy v <=? y) && (y <? vy w)) eqn:B.
    - assert (By : vy v <= y < vy w) by lia. destruct (Edge y By) as [W1 W2]. rewrite HC.
      pose proof (cd_01 V CD (vx v) y). destruct Uv as [E1|E1]; rewrite E1 in *.
      + change ((1 - 1) / 2) with 0 in W1. lia.
      + change ((1 - -1) / 2) with 1 in W1. lia.
    - rewrite HC. lia. }
  assert (Chg : forall s, touch (vy v) (vy w) s -> s_lo s <= s_hi s ->
                exists y, s_lo s - 1 <= y <= s_hi s /\ cnt V (vx v) y <> cnt V (vx v - 1) y).
  { intros s T Ls. unfold touch in T. exists (Z.max (vy v) (s_lo s - 1)). split; [lia|].
    assert (By : vy v <= Z.max (vy v) (s_lo s - 1) < vy w) by lia. destruct (Edge _ By) as [_ W2].
    rewrite W2, Hahead by lia. destruct Uv as [E1|E1]; rewrite E1; lia. }
  split; [|split; [exact Cc'|destruct Uv as [E1|E1]; rewrite Ec, E1; reflexivity]].
  constructor; rewrite ?Cc'.
  - rewrite <- app_assoc. exact ES.
  - apply Forall_app. split; [exact HD|]. repeat constructor; lia.
  - inversion HR as [|? ? _ H1]; subst. inversion H1; subst; assumption.
  - exact (p_good _ _ _ _ P).
  - exact New01.
  - exact NewCov.
  - rewrite col_total_app, HCol. cbn [col_total]. rewrite Ew, Z.eqb_refl. lia.
  - destruct rest as [|u rest]; [exact Logic.I|]. intros Eu.
    assert (Can : canonical (w :: u :: rest)).
    { destruct (cd_canon V CD) as [U S]. rewrite ES in U, S. apply Forall_app in U. destruct U as [_ U].
      apply sorted_tail_suffix in S. inversion U; subst. inversion S; subst. split; assumption. }
    assert (Luw : vy w <= vy u).
    { destruct Can as [_ S]. inversion S as [|? ? _ F]; subst. inversion F as [|? ? F1 _]; subst.
      unfold canon_le, pos_lt in F1. lia. }
    split.
    + intros y Hy. rewrite Q2. replace ((vy v <=? y) && (y <? vy w)) with false by lia.
      rewrite Z.add_0_r. apply Hahead. lia.
    + intros Hh. destruct (p_cur _ _ _ _ P Hh) as [Q|[Q Cv]]; [lia|].
      destruct (Z.eq_dec (vy u) (vy w)) as [E0|N0]; [|lia]. exfalso.
      (* the edge was closing, so the next one at the same point would be opening *)
      assert (E1 : vc v = -1).
      { destruct Uv as [E1|E1]; [|exact E1]. exfalso. apply HC in Cv.
        assert (By : vy v <= vy v < vy w) by lia. destruct (Edge _ By) as [W1 _]. rewrite E1 in W1.
        change ((1 - 1) / 2) with 0 in W1. lia. }
      assert (Cu : covers st' (vy w)).
      { exists (sc_cur st'). split; [apply member_cur, Hh|].
        destruct (g_cur _ (p_good _ _ _ _ P) Hh) as [N _]. lia. }
      apply NewCov in Cu.
      assert (Ecu : vc u = 1).
      { destruct Can as [_ S]. inversion S as [|? ? _ F]; subst. inversion F as [|? ? F1 _]; subst.
        unfold canon_le, pos_lt in F1. lia. }
      destruct (cnt_head u rest) as [k [K1 [K2 _]]].
      { destruct Can as [U S]. inversion U; subst. inversion S; subst. split; assumption. }
      assert (CV : cnt V (vx v) (vy w) = cnt (done ++ [v; w]) (vx v) (vy w) + cnt (u :: rest) (vx v) (vy w)).
      { rewrite ES. change (v :: w :: u :: rest) with ([v; w] ++ u :: rest). rewrite app_assoc. apply cnt_app. }
      rewrite Cu in CV. rewrite <- Eu, <- E0, K2, Ecu in CV. pose proof (cd_01 V CD (vx u) (vy u)). lia.
  - intros s Hs. destruct (p_scan _ _ _ _ P s Hs) as [Q|[Q T]].
    + exact (HS s Q).
    + rewrite Ecc in Q. split; [lia|]. intros _. apply Chg; [exact T|].
      pose proof (member_ne st' s (p_good _ _ _ _ P) Hs). lia.
  - intros s Hs. destruct (p_out _ _ _ _ P s Hs) as [Q|[r [Hr [Lr [T ->]]]]].
    + exact (HO s Q).
    + rewrite Ecc in *. pose proof (HS r (member_data st r Hr)) as [S1 _]. destruct (S1 Lr) as [T1 T2].
      unfold written. cbn [s_lo s_hi s_ml s_mh]. split; [lia|]. split; [exact T1|]. split; [exact T2|].
      apply Chg; [exact T|]. pose proof (member_ne st r G (member_data st r Hr)). lia.
  - intros x y Hx. rewrite (p_sum _ _ _ _ P) by lia. apply HSum. exact Hx.
Qed.

(* ---------- the whole loop ---------- *)
Lemma form_loop_spec V : clean_data V -> forall n rest done st prev, (length rest <= n)%nat ->
  inv V done rest st -> prev = sc_cc st ->
  exists st' , form_loop st prev rest = Some st' /\ inv V V [] st'.
Proof.
  intros CD. induction n as [|n IH]; intros rest done st prev Hn I Ep.
  - destruct rest; [|cbn [length] in Hn; lia]. exists st. split; [reflexivity|].
    pose proof (i_split _ _ _ _ I) as ES. rewrite app_nil_r in ES. subst done. exact I.
  - destruct rest as [|v rest].
    + exists st. split; [reflexivity|]. pose proof (i_split _ _ _ _ I) as ES. rewrite app_nil_r in ES. subst done. exact I.
    + set (st1 := if vx v =? prev then st else nextMajorCoordinate (vx v) st).
      assert (I1 : inv V done (v :: rest) st1 /\ sc_cc st1 = vx v).
      { unfold st1. destruct (Z.eqb_spec (vx v) prev) as [E|E].
        - split; [exact I|congruence].
        - split; [|destruct st; reflexivity]. apply next_column; [exact CD|exact I|].
          pose proof (i_rest _ _ _ _ I) as R. inversion R; subst. lia. }
      destruct I1 as [I1 E1].
      destruct (edge_facts V done v rest st1 CD I1 E1) as [w [rest' [-> _]]].
      destruct (edge_step V done v w rest' st1 CD I1 E1) as [st2 [E2 [I2 [Ec Ea]]]].
      cbn [form_loop]. fold st1. rewrite E2. cbn [bind]. rewrite Ea. change (1 >? 1) with false. cbn beta iota.
      apply (IH rest' (done ++ [v; w]) st2 (vx v)); [cbn [length] in Hn; lia|exact I2|congruence].
Qed.

Lemma inv_start V v rest : V = v :: rest -> clean_data V ->
  inv V [] V (mk_scan [] false (mk_sr 0 0 0 0) (vx v) []).
Proof.
  intros E CD.
  assert (F : Forall (fun w => vx v <= vx w) V).
  { destruct (cd_canon V CD) as [_ S]. rewrite E in *. inversion S as [|? ? _ F]; subst. constructor; [lia|].
    eapply Forall_impl; [|exact F]. intros w Hw. unfold canon_le, pos_lt in Hw. lia. }
  constructor; cbn [sc_data sc_have sc_cur sc_cc sc_out].
  - reflexivity.
  - constructor.
  - exact F.
  - constructor; cbn [sc_data sc_have]; [|intros s []|discriminate].
    constructor; [constructor|intros s []|intros s t []].
  - intros y. left; reflexivity.
  - intros y. cbn [cnt]. split; [|lia]. intros [s [[[]|[K _]] _]]. discriminate K.
  - reflexivity.
  - destruct V as [|v1 r1]; [exact Logic.I|]. assert (v1 = v) by congruence. subst v1. intros _. split; [|discriminate]. intros y _. change (cnt [] (vx v) y) with 0. symmetry.
    apply cnt_left. eapply Forall_impl; [|exact F]. intros w Hw. cbn beta in *. lia.
  - intros s [[]|[K _]]. discriminate K.
  - intros s [].
  - intros x y Hx. cbn [out_sum scan_sum]. symmetry. apply cnt_left. eapply Forall_impl; [|exact F].
    intros w Hw. cbn beta in *. lia.
Qed.

Lemma form_scan_spec V : clean_data V -> exists st, form_loop scan_start INT_MAX V = Some st /\
  (forall s, In s (sc_out st) -> exists cc, written V cc s) /\
  (forall x y, out_sum (sc_out st) x y = cnt V x y).
Proof.
  intros CD. destruct V as [|v rest] eqn:EV.
  - exists scan_start. split; [reflexivity|]. split; [intros s []|reflexivity].
  - rewrite <- EV in *.
    pose proof (inv_start V v rest EV CD) as I0.
    assert (E0 : form_loop scan_start INT_MAX V = form_loop (mk_scan [] false (mk_sr 0 0 0 0) (vx v) []) (vx v) V).
    { rewrite EV. cbn [form_loop]. destruct rest as [|w rest']; [reflexivity|].
      rewrite Z.eqb_refl. unfold scan_start. destruct (Z.eqb_spec (vx v) INT_MAX) as [E|E]; [rewrite E; reflexivity|reflexivity]. }
    destruct (form_loop_spec V CD (length V) V [] _ (vx v) (Nat.le_refl _) I0 eq_refl) as [st [E1 I]].
    exists st. split; [congruence|]. split; [intros s Hs; exists (sc_cc st); exact (i_out _ _ _ _ I s Hs)|].
    (* nothing is left in the scan data *)
    pose proof (i_done _ _ _ _ I) as HD.
    assert (Zero : forall y, cnt V (sc_cc st) y = 0).
    { intros y. rewrite (cnt_right V (sc_cc st) y HD). apply rows_closed_prefix. apply (cd_closed V CD). }
    assert (NoM : forall s, ~ member st s).
    { intros s Hs. pose proof (member_ne st s (i_good _ _ _ _ I) Hs) as Ns.
      assert (C : covers st (s_lo s)) by (exists s; split; [exact Hs|lia]).
      apply (i_cov _ _ _ _ I) in C. rewrite Zero in C. lia. }
    assert (Dn : sc_data st = []).
    { destruct (sc_data st) as [|s S] eqn:E; [reflexivity|]. exfalso. apply (NoM s). left. rewrite E. left; reflexivity. }
    intros x y. destruct (Z_lt_ge_dec x (sc_cc st)) as [Q|Q].
    + rewrite <- (i_sum _ _ _ _ I x y Q), Dn. cbn [scan_sum]. lia.
    + rewrite (out_sum_right (sc_out st) (sc_cc st)); [|intros s Hs; destruct (i_out _ _ _ _ I s Hs) as [W _]; lia|lia].
      rewrite (cnt_done_const V (sc_cc st) x y HD) by lia. symmetry. apply Zero.
Qed.
