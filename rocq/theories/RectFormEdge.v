(* processEdge_ toggles the cells of the edge in the set of intervals that the
   scan data and the current rectangle stand for. *)
From Verif Require Import Base Scan90Spec Set90Spec Set90Model RectFormModel RectFormLemmas.

Definition member (st : scan) (s : srect) : Prop :=
  In s (sc_data st) \/ (sc_have st = true /\ s = sc_cur st).
Definition covers (st : scan) (y : Z) : Prop := exists s, member st s /\ s_lo s <= y < s_hi s.

Record good (st : scan) : Prop := {
  g_sep : sepset (sc_data st);
  g_ml : forall s, In s (sc_data st) -> s_ml s <= sc_cc st;
  g_cur : sc_have st = true -> s_lo (sc_cur st) < s_hi (sc_cur st) /\
            s_ml (sc_cur st) = sc_cc st /\ s_mh (sc_cur st) = sc_cc st /\
            forall s, In s (sc_data st) -> apart s (sc_cur st) }.

Record post (c d : Z) (st st' : scan) : Prop := {
  p_cc : sc_cc st' = sc_cc st;
  p_good : good st';
  p_cov : forall y, covers st' y <-> (c <= y < d /\ ~ covers st y) \/ (~ (c <= y < d) /\ covers st y);
  p_cur : sc_have st' = true -> s_lo (sc_cur st') <= c \/ (s_lo (sc_cur st') = d /\ covers st c);
  p_scan : forall s, member st' s -> member st s \/ (s_ml s = sc_cc st /\ touch c d s);
  p_out : forall s, In s (sc_out st') -> In s (sc_out st) \/
            exists r, In r (sc_data st) /\ s_ml r < sc_cc st /\ touch c d r /\
                      s = mk_sr (s_lo r) (s_hi r) (s_ml r) (sc_cc st);
  p_sum : forall x y, x < sc_cc st ->
            out_sum (sc_out st') x y + scan_sum (sc_data st') x y =
            out_sum (sc_out st) x y + scan_sum (sc_data st) x y }.

(* pointwise form of p_cov *)
Lemma cov_intro c d st st' :
  (forall s, member st' s -> forall y, s_lo s <= y < s_hi s ->
     (c <= y < d /\ ~ covers st y) \/ (~ (c <= y < d) /\ covers st y)) ->
  (forall y, c <= y < d -> ~ covers st y -> covers st' y) ->
  (forall s, member st s -> forall y, s_lo s <= y < s_hi s -> ~ (c <= y < d) -> covers st' y) ->
  forall y, covers st' y <-> (c <= y < d /\ ~ covers st y) \/ (~ (c <= y < d) /\ covers st y).
Proof.
  intros H1 H2 H3 y. split.
  - intros [s [Hs Hy]]. exact (H1 s Hs y Hy).
  - intros [[Hy N]|[N [s [Hs Hy]]]]; [exact (H2 y Hy N)|exact (H3 s Hs y Hy N)].
Qed.

Lemma member_data st s : In s (sc_data st) -> member st s.
Proof. intros H. left. exact H. Qed.
Lemma member_cur st : sc_have st = true -> member st (sc_cur st).
Proof. intros H. right. split; [exact H|reflexivity]. Qed.
Lemma member_apart st s t : good st -> member st s -> member st t -> s = t \/ apart s t.
Proof.
  intros G [Hs|[Hh ->]] [Ht|[Hh' ->]].
  - exact (ss_sep _ (g_sep st G) s t Hs Ht).
  - right. exact (proj2 (proj2 (proj2 (g_cur st G Hh'))) s Hs).
  - right. pose proof (proj2 (proj2 (proj2 (g_cur st G Hh))) t Ht) as A. unfold apart in *. lia.
  - left; reflexivity.
Qed.
Lemma member_ne st s : good st -> member st s -> s_lo s < s_hi s.
Proof. intros G [Hs|[Hh ->]]; [exact (ss_ne _ (g_sep st G) s Hs)|exact (proj1 (g_cur st G Hh))]. Qed.
(* a covered interval lies in one member *)
Lemma covered_in_one st c d : good st -> c < d -> (forall y, c <= y < d -> covers st y) ->
  exists r, member st r /\ s_lo r <= c /\ d <= s_hi r.
Proof.
  intros G L H. assert (Hc : c <= c < d) by lia. destruct (H c Hc) as [r [Hr Br]].
  exists r. split; [exact Hr|]. split; [lia|].
  destruct (Z_le_gt_dec d (s_hi r)) as [Q|Q]; [exact Q|]. exfalso.
  assert (Hh : c <= s_hi r < d) by lia. destruct (H _ Hh) as [q [Hq Bq]].
  destruct (member_apart st r q G Hr Hq) as [->|A]; [lia|]. unfold apart in A. lia.
Qed.

(* ---------- a closing edge inside a rectangle of the scan data ---------- *)
Lemma closing_data c d st r fuel ep : good st -> c < d -> In r (sc_data st) -> s_lo r <= c -> d <= s_hi r ->
  (sc_have st = true -> s_lo (sc_cur st) < c) ->
  exists st', edge_loop (Datatypes.S fuel) c d st (Some r) ep = Some (st', true) /\ post c d st st'.
Proof.
  intros G L Hr L1 L2 Hcur.
  pose proof (ss_ne _ (g_sep st G) r Hr) as Nr.
  pose proof (g_ml st G r Hr) as Mr.
  destruct st as [S have cur cc out]. cbn [sc_data sc_have sc_cur sc_cc sc_out] in *.
  pose proof (g_sep _ G) as HS. cbn [sc_data] in HS.
  destruct (sep_erase S r HS Hr) as [S1 [E1 [HS1 I1]]].
  cbn [edge_loop]. replace (s_lo r <=? d) with true by lia. replace (s_hi r >=? c) with true by lia.
  replace (contains_edge r c d) with true by (unfold contains_edge; lia).
  rewrite E1. cbn [bind].
  set (S2 := if s_lo r <? c then set_insert (mk_sr (s_lo r) c cc cc) S1 else S1).
  set (S3 := if s_hi r >? d then set_insert (mk_sr d (s_hi r) cc cc) S2 else S2).
  assert (A1 : forall s, In s S1 -> s_hi s < s_lo r \/ s_hi r < s_lo s).
  { intros s Hs. apply I1 in Hs. destruct Hs as [Hs Ns].
    destruct (ss_sep S HS s r Hs Hr) as [->|A]; [congruence|exact A]. }
  assert (HS2 : sepset S2 /\ forall s, In s S2 <-> In s S1 \/ (s_lo r < c /\ s = mk_sr (s_lo r) c cc cc)).
  { unfold S2. destruct (s_lo r <? c) eqn:E.
    - split.
      + apply sep_insert; [exact HS1|cbn [s_lo s_hi]; lia|]. intros s Hs. specialize (A1 s Hs).
        unfold apart. cbn [s_lo s_hi]. pose proof (ss_ne _ HS1 s Hs). lia.
      + intros s. rewrite (insert_in _ _ (ss_sorted _ HS1)). split; [intros [->|K]; [right; split; [lia|reflexivity]|tauto]|tauto].
    - split; [exact HS1|]. intros s. split; [tauto|]. intros [K|[K _]]; [exact K|lia]. }
  destruct HS2 as [HS2 I2].
  assert (HS3 : sepset S3 /\ forall s, In s S3 <-> In s S2 \/ (d < s_hi r /\ s = mk_sr d (s_hi r) cc cc)).
  { unfold S3. destruct (s_hi r >? d) eqn:E.
    - split.
      + apply sep_insert; [exact HS2|cbn [s_lo s_hi]; lia|]. intros s Hs. apply I2 in Hs.
        unfold apart. cbn [s_lo s_hi]. destruct Hs as [Hs|[K ->]]; [|cbn [s_lo s_hi]; lia].
        specialize (A1 s Hs). pose proof (ss_ne _ HS1 s Hs). lia.
      + intros s. rewrite (insert_in _ _ (ss_sorted _ HS2)). split; [intros [->|K]; [right; split; [lia|reflexivity]|tauto]|tauto].
    - split; [exact HS2|]. intros s. split; [tauto|]. intros [K|[K _]]; [exact K|lia]. }
  destruct HS3 as [HS3 I3].
  exists (mk_scan S3 have cur cc (write_out cc r out)). split; [reflexivity|].
  assert (Ac : have = true -> s_hi cur < s_lo r \/ s_hi r < s_lo cur).
  { intros Hh. destruct (g_cur _ G Hh) as [_ [_ [_ A]]]. cbn [sc_data sc_cur] in A. specialize (A r Hr). unfold apart in A. lia. }
  split; cbn [sc_data sc_have sc_cur sc_cc sc_out].
  - reflexivity.
  - split; cbn [sc_data sc_have sc_cur sc_cc sc_out].
    + exact HS3.
    + intros s Hs. apply I3 in Hs. rewrite I2 in Hs. destruct Hs as [[Hs|[_ ->]]|[_ ->]]; cbn [s_ml]; try lia.
      apply I1 in Hs. apply (g_ml _ G). cbn [sc_data]. apply Hs.
    + intros Hh. destruct (g_cur _ G Hh) as [N [M1 [M2 A]]]. cbn [sc_data sc_cur sc_cc] in *.
      split; [exact N|]. split; [exact M1|]. split; [exact M2|]. specialize (Ac Hh).
      intros s Hs. apply I3 in Hs. rewrite I2 in Hs.
      destruct Hs as [[Hs|[_ ->]]|[_ ->]]; unfold apart; cbn [s_lo s_hi]; try lia.
      apply I1 in Hs. exact (A s (proj1 Hs)).
  - apply cov_intro.
    + intros s Hs y Hy. right. unfold member in Hs. cbn [sc_data sc_have sc_cur] in Hs.
      rewrite I3, I2 in Hs. destruct Hs as [[[Hs|[K ->]]|[K ->]]|[Hh ->]]; cbn [s_lo s_hi] in Hy.
      * specialize (A1 s Hs). pose proof (ss_ne _ HS1 s Hs). split; [lia|]. exists s. split; [|exact Hy].
        left. cbn [sc_data]. apply I1, Hs.
      * split; [lia|]. exists r. split; [left; exact Hr|lia].
      * split; [lia|]. exists r. split; [left; exact Hr|lia].
      * specialize (Ac Hh). split; [lia|]. exists cur. split; [right; split; [exact Hh|reflexivity]|lia].
    + intros y Hy N. exfalso. apply N. exists r. split; [left; exact Hr|lia].
    + intros s Hs y Hy N. destruct Hs as [Hs|[Hh ->]]; cbn [sc_data sc_have sc_cur] in *.
      * assert (D : s = r \/ s <> r).
        { destruct (sr_eqb s r) eqn:E; [left; apply sr_eqb_spec, E|right; intros ->].
          assert (sr_eqb r r = true) by (apply sr_eqb_spec; reflexivity). congruence. }
        destruct D as [->|D].
        -- destruct (Z_lt_ge_dec y c) as [Q|Q].
           ++ exists (mk_sr (s_lo r) c cc cc). split; [|cbn [s_lo s_hi]; lia]. left. cbn [sc_data].
              apply I3. left. apply I2. right. split; [lia|reflexivity].
           ++ exists (mk_sr d (s_hi r) cc cc). split; [|cbn [s_lo s_hi]; lia]. left. cbn [sc_data].
              apply I3. right. split; [lia|reflexivity].
        -- exists s. split; [|exact Hy]. left. cbn [sc_data]. apply I3. left. apply I2. left. apply I1. tauto.
      * exists cur. split; [|exact Hy]. right. split; [exact Hh|reflexivity].
  - intros Hh. left. specialize (Hcur Hh). lia.
  - intros s Hs. unfold member in Hs. cbn [sc_data sc_have sc_cur] in Hs. rewrite I3, I2 in Hs.
    destruct Hs as [[[Hs|[K ->]]|[K ->]]|[Hh ->]].
    + left. left. cbn [sc_data]. apply I1, Hs.
    + right. unfold touch. cbn [s_ml s_lo s_hi]. lia.
    + right. unfold touch. cbn [s_ml s_lo s_hi]. lia.
    + left. right. split; [exact Hh|reflexivity].
  - intros s. unfold write_out. destruct (s_ml r <? cc) eqn:E; [|tauto].
    intros [<-|Hs]; [|tauto]. right. exists r. unfold touch. repeat split; try lia. exact Hr.
  - intros x y Hx. rewrite out_sum_write by exact Hx. rewrite (scan_sum_erase r S S1 x y E1).
    assert (Q2 : scan_sum S2 x y = scan_sum S1 x y).
    { unfold S2. destruct (s_lo r <? c); [apply scan_sum_insert; cbn [s_ml]; lia|reflexivity]. }
    assert (Q3 : scan_sum S3 x y = scan_sum S2 x y).
    { unfold S3. destruct (s_hi r >? d); [apply scan_sum_insert; cbn [s_ml]; lia|reflexivity]. }
    lia.
Qed.

(* ---------- a closing edge inside the current rectangle ---------- *)
Lemma closing_cur c d st : good st -> c < d -> sc_have st = true ->
  s_lo (sc_cur st) < c -> d <= s_hi (sc_cur st) ->
  post c d st (edge_rest c d st).
Proof.
  intros G L Hh L1 L2.
  destruct st as [S have cur cc out]. cbn [sc_data sc_have sc_cur sc_cc sc_out] in *. subst have.
  pose proof (g_sep _ G) as HS. cbn [sc_data] in HS.
  destruct (g_cur _ G eq_refl) as [N [M1 [M2 A]]]. cbn [sc_data sc_cur sc_cc] in *.
  unfold edge_rest.
  replace ((s_mh cur =? cc) && (s_hi cur >=? c)) with true by lia.
  replace (s_hi cur >? c) with true by lia. rewrite M1, M2.
  set (p := mk_sr (s_lo cur) c cc cc).
  assert (HS1 : sepset (set_insert p S)).
  { apply sep_insert; [exact HS|cbn [p s_lo s_hi]; lia|]. intros s Hs. specialize (A s Hs).
    unfold apart in *. cbn [p s_lo s_hi]. pose proof (ss_ne _ HS s Hs). lia. }
  pose proof (insert_in p S (ss_sorted _ HS)) as I1.
  assert (CurCov : forall y, s_lo cur <= y < s_hi cur -> covers (mk_scan S true cur cc out) y).
  { intros y Hy. exists cur. split; [right; split; reflexivity|exact Hy]. }
  assert (DataCov : forall s y, In s S -> s_lo s <= y < s_hi s -> covers (mk_scan S true cur cc out) y).
  { intros s y Hs Hy. exists s. split; [left; exact Hs|exact Hy]. }
  destruct (s_hi cur >? d) eqn:E.
  - set (q := mk_sr d (s_hi cur) cc cc).
    split; cbn [sc_data sc_have sc_cur sc_cc sc_out].
    + reflexivity.
    + split; cbn [sc_data sc_have sc_cur sc_cc sc_out].
      * exact HS1.
      * intros s Hs. apply I1 in Hs. destruct Hs as [->|Hs]; [cbn [p s_ml]; lia|exact (g_ml _ G s Hs)].
      * intros _. cbn [q s_lo s_hi s_ml s_mh]. repeat split; try lia.
        intros s Hs. apply I1 in Hs. unfold apart. cbn [q s_lo s_hi].
        destruct Hs as [->|Hs]; [cbn [p s_lo s_hi]; lia|].
        specialize (A s Hs). unfold apart in A. pose proof (ss_ne _ HS s Hs). lia.
    + apply cov_intro.
      * intros s Hs y Hy. right. unfold member in Hs. cbn [sc_data sc_have sc_cur] in Hs. rewrite I1 in Hs.
        destruct Hs as [[->|Hs]|[_ ->]].
        -- cbn [p s_lo s_hi] in Hy. split; [lia|]. apply CurCov. lia.
        -- specialize (A s Hs). unfold apart in A. split; [lia|]. apply (DataCov s y Hs Hy).
        -- cbn [q s_lo s_hi] in Hy. split; [lia|]. apply CurCov. lia.
      * intros y Hy NC. exfalso. apply NC. apply CurCov. lia.
      * intros s Hs y Hy NC. destruct Hs as [Hs|[_ ->]]; cbn [sc_data sc_cur] in *.
        -- exists s. split; [left; cbn [sc_data]; apply I1; right; exact Hs|exact Hy].
        -- destruct (Z_lt_ge_dec y c) as [Q|Q].
           ++ exists p. split; [left; cbn [sc_data]; apply I1; left; reflexivity|cbn [p s_lo s_hi]; lia].
           ++ exists q. split; [right; split; reflexivity|cbn [q s_lo s_hi]; lia].
    + intros _. right. split; [reflexivity|apply CurCov; lia].
    + intros s Hs. unfold member in Hs. cbn [sc_data sc_have sc_cur] in Hs. rewrite I1 in Hs.
      destruct Hs as [[->|Hs]|[_ ->]].
      * right. unfold touch. cbn [p s_ml s_lo s_hi]. lia.
      * left; left; exact Hs.
      * right. unfold touch. cbn [q s_ml s_lo s_hi]. lia.
    + intros s Hs. left; exact Hs.
    + intros x y Hx. rewrite scan_sum_insert by (cbn [p s_ml]; lia). reflexivity.
  - split; cbn [sc_data sc_have sc_cur sc_cc sc_out].
    + reflexivity.
    + split; cbn [sc_data sc_have sc_cur sc_cc sc_out].
      * exact HS1.
      * intros s Hs. apply I1 in Hs. destruct Hs as [->|Hs]; [cbn [p s_ml]; lia|exact (g_ml _ G s Hs)].
      * discriminate.
    + apply cov_intro.
      * intros s Hs y Hy. right. unfold member in Hs. cbn [sc_data sc_have sc_cur] in Hs. rewrite I1 in Hs.
        destruct Hs as [[->|Hs]|[K _]]; [| |discriminate K].
        -- cbn [p s_lo s_hi] in Hy. split; [lia|]. apply CurCov. lia.
        -- specialize (A s Hs). unfold apart in A. split; [lia|]. apply (DataCov s y Hs Hy).
      * intros y Hy NC. exfalso. apply NC. apply CurCov. lia.
      * intros s Hs y Hy NC. destruct Hs as [Hs|[_ ->]]; cbn [sc_data sc_cur] in *.
        -- exists s. split; [left; cbn [sc_data]; apply I1; right; exact Hs|exact Hy].
        -- exists p. split; [left; cbn [sc_data]; apply I1; left; reflexivity|cbn [p s_lo s_hi]; lia].
    + discriminate.
    + intros s Hs. unfold member in Hs. cbn [sc_data sc_have sc_cur] in Hs. rewrite I1 in Hs.
      destruct Hs as [[->|Hs]|[K _]]; [| |discriminate K].
      * right. unfold touch. cbn [p s_ml s_lo s_hi]. lia.
      * left; left; exact Hs.
    + intros s Hs. left; exact Hs.
    + intros x y Hx. rewrite scan_sum_insert by (cbn [p s_ml]; lia). reflexivity.
Qed.

(* ---------- an opening edge ---------- *)
(* touching is at an end point *)
Lemma open_touch c d st s : good st -> c < d -> (forall y, c <= y < d -> ~ covers st y) ->
  member st s -> touch c d s -> s_hi s = c \/ s_lo s = d.
Proof.
  intros G L N Hs T. pose proof (member_ne st s G Hs) as Ns. unfold touch in T.
  destruct (Z.eq_dec (s_hi s) c) as [E|E]; [left; exact E|].
  destruct (Z.eq_dec (s_lo s) d) as [E2|E2]; [right; exact E2|]. exfalso.
  assert (Q : c <= Z.max c (s_lo s) < d) by lia. apply (N _ Q). exists s. split; [exact Hs|lia].
Qed.
(* the edge touches nothing in the scan data *)
Lemma opening_rest c d st : good st -> c < d -> (forall y, c <= y < d -> ~ covers st y) ->
  (sc_have st = true -> s_lo (sc_cur st) < c) ->
  (forall s, In s (sc_data st) -> ~ touch c d s) ->
  post c d st (edge_rest c d st).
Proof.
  intros G L NC Hc NT.
  destruct st as [S have cur cc out]. cbn [sc_data sc_have sc_cur sc_cc sc_out] in *.
  pose proof (g_sep _ G) as HS. cbn [sc_data] in HS.
  assert (Far : forall s, In s S -> s_hi s < c \/ d < s_lo s).
  { intros s Hs. specialize (NT s Hs). unfold touch in NT. lia. }
  set (e := mk_sr c d cc cc).
  assert (DataCov : forall s y, In s S -> s_lo s <= y < s_hi s -> covers (mk_scan S have cur cc out) y).
  { intros s y Hs Hy. exists s. split; [left; exact Hs|exact Hy]. }
  unfold edge_rest. destruct have.
  - destruct (g_cur _ G eq_refl) as [N [M1 [M2 A]]]. cbn [sc_data sc_cur sc_cc] in *.
    specialize (Hc eq_refl).
    assert (CurCov : forall y, s_lo cur <= y < s_hi cur -> covers (mk_scan S true cur cc out) y).
    { intros y Hy. exists cur. split; [right; split; reflexivity|exact Hy]. }
    assert (Hhi : s_hi cur <= c).
    { destruct (Z_le_gt_dec (s_hi cur) c) as [Q|Q]; [exact Q|]. exfalso.
      assert (Q1 : c <= c < d) by lia. apply (NC c Q1). apply CurCov. lia. }
    destruct ((s_mh cur =? cc) && (s_hi cur >=? c)) eqn:E.
    + assert (Ec : s_hi cur = c) by lia. replace (s_hi cur >? c) with false by lia.
      set (q := mk_sr (s_lo cur) d (s_ml cur) (s_mh cur)).
      split; cbn [sc_data sc_have sc_cur sc_cc sc_out].
      * reflexivity.
      * split; cbn [sc_data sc_have sc_cur sc_cc sc_out].
        -- exact HS.
        -- exact (g_ml _ G).
        -- intros _. cbn [q s_lo s_hi s_ml s_mh]. repeat split; try lia.
           intros s Hs. specialize (A s Hs). specialize (Far s Hs). pose proof (ss_ne _ HS s Hs). unfold apart in *. cbn [q s_lo s_hi]. lia.
      * apply cov_intro.
        -- intros s Hs y Hy. destruct Hs as [Hs|[_ ->]]; cbn [sc_data sc_cur] in *.
           ++ specialize (Far s Hs). right. split; [lia|apply (DataCov s y Hs Hy)].
           ++ cbn [q s_lo s_hi] in Hy. destruct (Z_lt_ge_dec y c) as [Q|Q].
              ** right. split; [lia|]. apply CurCov. lia.
              ** left. split; [lia|]. apply NC. lia.
        -- intros y Hy _. exists q. split; [right; split; reflexivity|cbn [q s_lo s_hi]; lia].
        -- intros s Hs y Hy N2. destruct Hs as [Hs|[_ ->]]; cbn [sc_data sc_cur] in *.
           ++ exists s. split; [left; exact Hs|exact Hy].
           ++ exists q. split; [right; split; reflexivity|cbn [q s_lo s_hi]; lia].
      * intros _. left. cbn [q s_lo]. lia.
      * intros s Hs. destruct Hs as [Hs|[_ ->]]; cbn [sc_data sc_cur] in *.
        -- left; left; exact Hs.
        -- right. unfold touch. cbn [q s_ml s_lo s_hi]. lia.
      * intros s Hs. left; exact Hs.
      * intros x y Hx. reflexivity.
    + assert (Ec : s_hi cur < c) by lia.
      assert (HS1 : sepset (set_insert cur S)) by (apply sep_insert; assumption).
      pose proof (insert_in cur S (ss_sorted _ HS)) as I1.
      assert (HS2 : sepset (set_insert e (set_insert cur S))).
      { apply sep_insert; [exact HS1|cbn [e s_lo s_hi]; lia|]. intros s Hs. apply I1 in Hs.
        unfold apart. cbn [e s_lo s_hi]. destruct Hs as [->|Hs]; [lia|]. specialize (Far s Hs). lia. }
      pose proof (insert_in e _ (ss_sorted _ HS1)) as I2.
      split; cbn [sc_data sc_have sc_cur sc_cc sc_out].
      * reflexivity.
      * split; cbn [sc_data sc_have sc_cur sc_cc sc_out].
        -- exact HS2.
        -- intros s Hs. apply I2 in Hs. rewrite I1 in Hs. destruct Hs as [->|[->|Hs]].
           ++ cbn [e s_ml]. lia.
           ++ lia.
           ++ exact (g_ml _ G s Hs).
        -- discriminate.
      * apply cov_intro.
        -- intros s Hs y Hy. destruct Hs as [Hs|[K _]]; cbn [sc_data sc_have] in *; [|discriminate K].
           apply I2 in Hs. rewrite I1 in Hs. destruct Hs as [->|[->|Hs]].
           ++ left. cbn [e s_lo s_hi] in Hy. split; [exact Hy|apply NC; exact Hy].
           ++ right. split; [lia|apply CurCov; exact Hy].
           ++ right. specialize (Far s Hs). split; [lia|apply (DataCov s y Hs Hy)].
        -- intros y Hy _. exists e. split; [left; cbn [sc_data]; apply I2; left; reflexivity|cbn [e s_lo s_hi]; lia].
        -- intros s Hs y Hy N2. exists s. split; [|exact Hy]. left. cbn [sc_data]. apply I2. right. apply I1.
           destruct Hs as [Hs|[_ ->]]; [right; exact Hs|left; reflexivity].
      * discriminate.
      * intros s Hs. destruct Hs as [Hs|[K _]]; cbn [sc_data sc_have] in *; [|discriminate K].
        apply I2 in Hs. rewrite I1 in Hs. destruct Hs as [->|[->|Hs]].
        -- right. unfold touch. cbn [e s_ml s_lo s_hi]. lia.
        -- left. right. split; reflexivity.
        -- left; left; exact Hs.
      * intros s Hs. left; exact Hs.
      * intros x y Hx. rewrite scan_sum_insert by (cbn [e s_ml]; lia).
        rewrite scan_sum_insert by lia. reflexivity.
  - assert (HS2 : sepset (set_insert e S)).
    { apply sep_insert; [exact HS|cbn [e s_lo s_hi]; lia|]. intros s Hs.
      unfold apart. cbn [e s_lo s_hi]. specialize (Far s Hs). lia. }
    pose proof (insert_in e _ (ss_sorted _ HS)) as I2.
    split; cbn [sc_data sc_have sc_cur sc_cc sc_out].
    + reflexivity.
    + split; cbn [sc_data sc_have sc_cur sc_cc sc_out].
      * exact HS2.
      * intros s Hs. apply I2 in Hs. destruct Hs as [->|Hs]; [cbn [e s_ml]; lia|exact (g_ml _ G s Hs)].
      * discriminate.
    + apply cov_intro.
      * intros s Hs y Hy. destruct Hs as [Hs|[K _]]; cbn [sc_data sc_have] in *; [|discriminate K].
        apply I2 in Hs. destruct Hs as [->|Hs].
        -- left. cbn [e s_lo s_hi] in Hy. split; [exact Hy|apply NC; exact Hy].
        -- right. specialize (Far s Hs). split; [lia|apply (DataCov s y Hs Hy)].
      * intros y Hy _. exists e. split; [left; cbn [sc_data]; apply I2; left; reflexivity|cbn [e s_lo s_hi]; lia].
      * intros s Hs y Hy N2. exists s. split; [|exact Hy]. left. cbn [sc_data]. apply I2. right.
        destruct Hs as [Hs|[K _]]; [exact Hs|discriminate K].
    + discriminate.
    + intros s Hs. destruct Hs as [Hs|[K _]]; cbn [sc_data sc_have] in *; [|discriminate K].
      apply I2 in Hs. destruct Hs as [->|Hs].
      * right. unfold touch. cbn [e s_ml s_lo s_hi]. lia.
      * left; left; exact Hs.
    + intros s Hs. left; exact Hs.
    + intros x y Hx. rewrite scan_sum_insert by (cbn [e s_ml]; lia). reflexivity.
Qed.

(* the edge is merged with the members it touches *)
Lemma opening_post c d st S' L H out' : good st -> c < d -> (forall y, c <= y < d -> ~ covers st y) ->
  srsorted S' ->
  (forall s, In s S' <-> member st s /\ ~ touch c d s) ->
  ((L = c /\ forall m, member st m -> s_hi m <> c) \/ (exists m, member st m /\ s_hi m = c /\ L = s_lo m)) ->
  ((H = d /\ forall m, member st m -> s_lo m <> d) \/ (exists m, member st m /\ s_lo m = d /\ H = s_hi m)) ->
  (forall s, In s out' -> In s (sc_out st) \/
            exists r, In r (sc_data st) /\ s_ml r < sc_cc st /\ touch c d r /\
                      s = mk_sr (s_lo r) (s_hi r) (s_ml r) (sc_cc st)) ->
  (forall x y, x < sc_cc st -> out_sum out' x y + scan_sum S' x y =
            out_sum (sc_out st) x y + scan_sum (sc_data st) x y) ->
  post c d st (mk_scan S' true (mk_sr L H (sc_cc st) (sc_cc st)) (sc_cc st) out').
Proof.
  intros G Lt NC Sd I HL HH HO HSum.
  assert (BL : L <= c).
  { destruct HL as [[-> _]|[m [Hm [E ->]]]]; [lia|]. pose proof (member_ne st m G Hm). lia. }
  assert (BH : d <= H).
  { destruct HH as [[-> _]|[m [Hm [E ->]]]]; [lia|]. pose proof (member_ne st m G Hm). lia. }
  assert (CovL : forall y, L <= y < c -> covers st y).
  { intros y Hy. destruct HL as [[-> _]|[m [Hm [E ->]]]]; [lia|]. exists m. split; [exact Hm|lia]. }
  assert (CovH : forall y, d <= y < H -> covers st y).
  { intros y Hy. destruct HH as [[-> _]|[m [Hm [E ->]]]]; [lia|]. exists m. split; [exact Hm|lia]. }
  assert (Far : forall s, In s S' -> s_hi s < L \/ H < s_lo s).
  { intros s Hs. apply I in Hs. destruct Hs as [Hs NT]. pose proof (member_ne st s G Hs) as Ns.
    unfold touch in NT. assert (D : s_hi s < c \/ d < s_lo s) by lia. destruct D as [D|D].
    - left. destruct HL as [[-> _]|[m [Hm [E ->]]]]; [exact D|].
      destruct (member_apart st s m G Hs Hm) as [->|A]; [lia|]. unfold apart in A. lia.
    - right. destruct HH as [[-> _]|[m [Hm [E ->]]]]; [exact D|].
      destruct (member_apart st s m G Hs Hm) as [->|A]; [lia|]. unfold apart in A.
      pose proof (member_ne st m G Hm). lia. }
  set (q := mk_sr L H (sc_cc st) (sc_cc st)).
  split; cbn [sc_data sc_have sc_cur sc_cc sc_out].
  - reflexivity.
  - split; cbn [sc_data sc_have sc_cur sc_cc sc_out].
    + split.
      * exact Sd.
      * intros s Hs. apply I in Hs. apply (member_ne st s G), Hs.
      * intros s t Hs Ht. apply I in Hs. apply I in Ht. apply (member_apart st s t G); [apply Hs|apply Ht].
    + intros s Hs. apply I in Hs. destruct Hs as [[Hs|[Hh ->]] _]; [exact (g_ml st G s Hs)|].
      destruct (g_cur st G Hh) as [_ [M _]]. lia.
    + intros _. cbn [q s_lo s_hi s_ml s_mh]. repeat split; try lia. intros s Hs. specialize (Far s Hs).
      unfold apart. cbn [q s_lo s_hi]. lia.
  - apply cov_intro.
    + intros s [Hs|[_ ->]] y Hy; cbn [sc_data sc_cur] in *.
      * right. specialize (Far s Hs). split; [lia|]. apply I in Hs. exists s. split; [apply Hs|exact Hy].
      * cbn [q s_lo s_hi] in Hy. destruct (Z_lt_ge_dec y c) as [Q|Q].
        -- right. split; [lia|]. apply CovL. lia.
        -- destruct (Z_lt_ge_dec y d) as [Q2|Q2].
           ++ left. split; [lia|]. apply NC. lia.
           ++ right. split; [lia|]. apply CovH. lia.
    + intros y Hy _. exists q. split; [right; split; reflexivity|cbn [q s_lo s_hi]; lia].
    + intros s Hs y Hy N2.
      assert (D : touch c d s \/ ~ touch c d s) by (unfold touch; lia). destruct D as [D|D].
      * exists q. split; [right; split; reflexivity|]. cbn [q s_lo s_hi].
        pose proof (member_ne st s G Hs) as Ns.
        destruct (open_touch c d st s G Lt NC Hs D) as [E|E].
        -- destruct HL as [[-> HL]|[m [Hm [Em ->]]]]; [exfalso; exact (HL s Hs E)|].
           destruct (member_apart st s m G Hs Hm) as [->|A]; [lia|]. unfold apart in A. pose proof (member_ne st m G Hm). lia.
        -- destruct HH as [[-> HH]|[m [Hm [Em ->]]]]; [exfalso; exact (HH s Hs E)|].
           destruct (member_apart st s m G Hs Hm) as [->|A]; [lia|]. unfold apart in A. pose proof (member_ne st m G Hm). lia.
      * exists s. split; [left; cbn [sc_data]; apply I; tauto|exact Hy].
  - intros _. left. exact BL.
  - intros s [Hs|[_ ->]]; cbn [sc_data sc_cur] in *.
    + left. apply I in Hs. apply Hs.
    + right. unfold touch. cbn [q s_ml s_lo s_hi]. lia.
  - exact HO.
  - exact HSum.
Qed.

Lemma sr_dec (s r : srect) : s = r \/ s <> r.
Proof.
  destruct (sr_eqb s r) eqn:E; [left; apply sr_eqb_spec, E|right; intros ->].
  assert (sr_eqb r r = true) by (apply sr_eqb_spec; reflexivity). congruence.
Qed.

(* the effect of meeting a touching rectangle for the first time, when the
   current rectangle, if any, ends before the edge or at its start *)
Definition merge_first (c d : Z) (r : srect) (st : scan) (S1 : list srect) : scan :=
  let fresh := mk_sr (Z.min (s_lo r) c) (Z.max (s_hi r) d) (sc_cc st) (sc_cc st) in
  let out1 := write_out (sc_cc st) r (sc_out st) in
  if sc_have st then
    if s_hi (sc_cur st) >=? c
    then mk_scan S1 true (mk_sr (s_lo (sc_cur st)) (Z.max d (s_hi r)) (s_ml (sc_cur st)) (s_mh (sc_cur st))) (sc_cc st) out1
    else mk_scan (set_insert (sc_cur st) S1) true fresh (sc_cc st) out1
  else mk_scan S1 true fresh (sc_cc st) out1.

Lemma loop_open fuel c d st r S1 : c < d -> s_lo r < s_hi r -> s_hi r = c \/ s_lo r = d ->
  (sc_have st = true -> s_hi (sc_cur st) <= c) -> set_erase r (sc_data st) = Some S1 ->
  edge_loop (Datatypes.S fuel) c d st (Some r) false =
  edge_loop fuel c d (merge_first c d r st S1) (set_next r (sc_data st)) true.
Proof.
  intros L N E Hc Er. destruct st as [S have cur cc out]. cbn [sc_data sc_have sc_cur sc_cc sc_out] in *.
  cbn [edge_loop]. replace (s_lo r <=? d) with true by lia. replace (s_hi r >=? c) with true by lia.
  replace (contains_edge r c d) with false by (unfold contains_edge; lia).
  rewrite Er. cbn [bind]. unfold merge_first. cbn [sc_data sc_have sc_cur sc_cc sc_out].
  destruct have; [|reflexivity]. specialize (Hc eq_refl).
  destruct (s_hi cur >=? c) eqn:E1; [|reflexivity].
  replace (s_hi cur >? c) with false by lia. rewrite andb_false_r. reflexivity.
Qed.

Lemma decide_data (p : srect -> bool) S : (exists s, In s S /\ p s = true) \/ (forall s, In s S -> p s = false).
Proof.
  induction S as [|s S IH]; [right; intros s []|].
  destruct (p s) eqn:E; [left; exists s; split; [left; reflexivity|exact E]|].
  destruct IH as [[t [Ht Hp]]|IH]; [left; exists t; split; [right; exact Ht|exact Hp]|].
  right. intros t [<-|Ht]; [exact E|exact (IH t Ht)].
Qed.

Lemma out_one c d cc r out data s : In s (write_out cc r out) -> In r data -> touch c d r ->
  In s out \/ exists q, In q data /\ s_ml q < cc /\ touch c d q /\ s = mk_sr (s_lo q) (s_hi q) (s_ml q) cc.
Proof.
  unfold write_out. destruct (s_ml r <? cc) eqn:E; [|tauto].
  intros [<-|Hs] Hr T; [|left; exact Hs]. right. exists r. repeat split; try assumption; try lia; apply T.
Qed.

Lemma opening_loop c d st it k : good st -> c < d -> (forall y, c <= y < d -> ~ covers st y) ->
  (sc_have st = true -> s_lo (sc_cur st) < c) ->
  at_ (sc_data st) it k -> (forall s, In s (sc_data st) -> s_lo s <= k -> s_hi s < c) ->
  exists st' ep, edge_loop (Datatypes.S (length (sc_data st))) c d st it false = Some (st', ep) /\
    post c d st (if ep then st' else edge_rest c d st').
Proof.
  intros G L NC Hc At Sk.
  pose proof (g_sep st G) as HS.
  assert (F0 : (count_gt k (sc_data st) < Datatypes.S (length (sc_data st)))%nat)
    by (pose proof (count_gt_all k (sc_data st)); lia).
  assert (Hhi : sc_have st = true -> s_hi (sc_cur st) <= c).
  { intros Hh. destruct (Z_le_gt_dec (s_hi (sc_cur st)) c) as [Q|Q]; [exact Q|]. exfalso. specialize (Hc Hh).
    assert (Q1 : c <= c < d) by lia. apply (NC c Q1). exists (sc_cur st). split; [apply member_cur, Hh|lia]. }
  assert (OT : forall s, In s (sc_data st) -> touch c d s -> s_hi s = c \/ s_lo s = d).
  { intros s Hs T. apply (open_touch c d st s G L NC (member_data st s Hs) T). }
  (* the rectangle that starts at the end of the edge *)
  destruct (decide_data (fun s => s_lo s =? d) (sc_data st)) as [[B [HB EB]]|NB];
  (* the one that ends at the start of the edge *)
  destruct (decide_data (fun s => s_hi s =? c) (sc_data st)) as [[A [HA EA]]|NA].
  - (* both *)
    apply Z.eqb_eq in EA. apply Z.eqb_eq in EB.
    pose proof (ss_ne _ HS A HA) as NeA. pose proof (ss_ne _ HS B HB) as NeB.
    assert (kA : k < s_lo A). { destruct (Z_le_gt_dec (s_lo A) k) as [Q|Q]; [|lia]. specialize (Sk A HA Q). lia. }
    assert (TA : touch c d A) by (unfold touch; lia). assert (TB : touch c d B) by (unfold touch; lia).
    destruct (loop_reach (Datatypes.S (length (sc_data st))) c d st false A k it HS At HA kA TA) as [fuel [E1 F1]].
    { intros s Hs Ls T. destruct (OT s Hs T) as [Q|Q]; [|lia].
      destruct (ss_sep _ HS s A Hs HA) as [->|P]; [lia|]. unfold apart in P. pose proof (ss_ne _ HS s Hs). lia. }
    { exact F0. }
    destruct (sep_erase _ A HS HA) as [S1 [Er1 [HS1 I1]]].
    rewrite (loop_open fuel c d st A S1 L NeA (or_introl EA) Hhi Er1) in E1. rewrite E1. clear E1.
    (* after A *)
    set (q1 := mk_sr (s_lo A) d (sc_cc st) (sc_cc st)).
    set (S2 := if sc_have st then set_insert (sc_cur st) S1 else S1).
    assert (M1 : merge_first c d A st S1 = mk_scan S2 true q1 (sc_cc st) (write_out (sc_cc st) A (sc_out st))).
    { unfold merge_first, S2, q1. replace (Z.min (s_lo A) c) with (s_lo A) by lia. replace (Z.max (s_hi A) d) with d by lia.
      destruct (sc_have st) eqn:Hh; [|reflexivity]. specialize (Hhi eq_refl). specialize (Hc eq_refl).
      assert (Q : s_hi (sc_cur st) < c).
      { destruct (g_cur st G Hh) as [_ [_ [_ Ap]]]. specialize (Ap A HA). unfold apart in Ap. lia. }
      replace (s_hi (sc_cur st) >=? c) with false by lia. reflexivity. }
    rewrite M1.
    assert (CurFar : sc_have st = true -> s_hi (sc_cur st) < s_lo A).
    { intros Hh. destruct (g_cur st G Hh) as [_ [_ [_ Ap]]]. specialize (Ap A HA). specialize (Hc Hh). unfold apart in Ap. lia. }
    assert (HS2 : sepset S2).
    { unfold S2. destruct (sc_have st) eqn:Hh; [|exact HS1]. destruct (g_cur st G Hh) as [Q1 [_ [_ Ap]]].
      apply sep_insert; [exact HS1|exact Q1|]. intros s Hs. apply Ap. apply I1, Hs. }
    assert (I2 : forall s, In s S2 <-> (In s (sc_data st) /\ s <> A) \/ (sc_have st = true /\ s = sc_cur st)).
    { intros s. unfold S2. destruct (sc_have st) eqn:Hh.
      - rewrite (insert_in _ _ (ss_sorted _ HS1)), I1. tauto.
      - rewrite I1. split; [tauto|]. intros [K|[K _]]; [exact K|discriminate K]. }
    assert (Same : forall s, s_lo A < s_lo s -> (In s (sc_data st) <-> In s S2)).
    { intros s Ls. rewrite I2. split.
      - intros Hs. left. split; [exact Hs|intros ->; lia].
      - intros [[Hs _]|[Hh ->]]; [exact Hs|]. specialize (CurFar Hh). destruct (g_cur st G Hh) as [Q1 _]. lia. }
    assert (BS2 : In B S2). { apply I2. left. split; [exact HB|intros ->; lia]. }
    destruct (loop_reach fuel c d (mk_scan S2 true q1 (sc_cc st) (write_out (sc_cc st) A (sc_out st))) true B
                (s_lo A) (set_next A (sc_data st))) as [fuel2 [E2 F2]]; cbn [sc_data].
    { exact HS2. }
    { apply (at_change (sc_data st)); [apply next_at; assumption|exact Same]. }
    { exact BS2. }
    { lia. }
    { exact TB. }
    { intros s Hs Ls T. apply Same in Hs; [|lia]. destruct (OT s Hs T) as [Q|Q]; [|lia].
      pose proof (ss_ne _ HS s Hs). destruct (ss_sep _ HS s A Hs HA) as [->|P]; [lia|]. unfold apart in P. lia. }
    { pose proof (count_gt_eq (s_lo A) (sc_data st) S2 (ss_sorted _ HS) (ss_sorted _ HS2) Same). lia. }
    rewrite E2. clear E2. cbn [edge_loop].
    replace (s_lo B <=? d) with true by lia. replace (s_hi B >=? c) with true by lia.
    replace (contains_edge B c d) with false by (unfold contains_edge; lia).
    destruct (sep_erase _ B HS2 BS2) as [S3 [Er3 [HS3 I3]]]. rewrite Er3. cbn [bind].
    replace (s_hi q1 >=? c) with true by (cbn [q1 s_hi]; lia). cbn [negb andb].
    replace (Z.max d (s_hi B)) with (s_hi B) by lia. cbn [q1 s_lo s_hi s_ml s_mh].
    assert (Same3 : forall s, s_lo B < s_lo s -> (In s S2 <-> In s S3)).
    { intros s Ls. rewrite I3. split; [intros Hs; split; [exact Hs|intros ->; lia]|tauto]. }
    cbn [sc_data] in F2.
    rewrite (loop_skip fuel2 c d _ true (s_lo B)); cbn [sc_data].
    2: exact HS3.
    2:{ apply (at_change S2); [apply next_at; assumption|exact Same3]. }
    2:{ intros s Hs Ls T. unfold touch in T. lia. }
    2:{ pose proof (count_gt_eq (s_lo B) S2 S3 (ss_sorted _ HS2) (ss_sorted _ HS3) Same3). lia. }
    eexists _, true. split; [reflexivity|].
    apply opening_post; try assumption.
    + apply (ss_sorted _ HS3).
    + intros s. rewrite I3, I2. unfold member. split.
      * intros [[[Hs N1]|[Hh ->]] N2].
        -- split; [left; exact Hs|]. intros T. destruct (OT s Hs T) as [Q|Q].
           ++ destruct (ss_sep _ HS s A Hs HA) as [->|P]; [congruence|]. unfold apart in P. pose proof (ss_ne _ HS s Hs). lia.
           ++ apply N2, (sep_lo_inj _ s B HS Hs HB). lia.
        -- split; [right; split; [exact Hh|reflexivity]|]. unfold touch. specialize (CurFar Hh). lia.
      * intros [[Hs|[Hh ->]] NT].
        -- split; [left; split; [exact Hs|intros ->; exact (NT TA)]|intros ->; exact (NT TB)].
        -- split; [right; split; [exact Hh|reflexivity]|]. intros K. apply NT. rewrite K. exact TB.
    + right. exists A. split; [left; exact HA|]. split; [exact EA|reflexivity].
    + right. exists B. split; [left; exact HB|]. split; [exact EB|reflexivity].
    + intros s Hs. destruct (out_one c d _ _ _ (sc_data st) s Hs HB TB) as [K|K]; [|right; exact K].
      exact (out_one c d _ _ _ (sc_data st) s K HA TA).
    + intros x y Hx. rewrite !out_sum_write by exact Hx.
      pose proof (scan_sum_erase _ _ _ x y Er1). pose proof (scan_sum_erase _ _ _ x y Er3).
      assert (Q : scan_sum S2 x y = scan_sum S1 x y).
      { unfold S2. destruct (sc_have st) eqn:Hh; [|reflexivity]. apply scan_sum_insert.
        destruct (g_cur st G Hh) as [_ [M _]]. lia. }
      lia.
  - (* only at the end *)
    apply Z.eqb_eq in EB. pose proof (ss_ne _ HS B HB) as NeB.
    assert (TB : touch c d B) by (unfold touch; lia).
    assert (kB : k < s_lo B). { destruct (Z_le_gt_dec (s_lo B) k) as [Q|Q]; [|lia]. specialize (Sk B HB Q). lia. }
    assert (OB : forall s, In s (sc_data st) -> touch c d s -> s = B).
    { intros s Hs T. destruct (OT s Hs T) as [Q|Q]; [specialize (NA s Hs); lia|].
      apply (sep_lo_inj _ s B HS Hs HB). lia. }
    destruct (loop_reach (Datatypes.S (length (sc_data st))) c d st false B k it HS At HB kB TB) as [fuel [E1 F1]].
    { intros s Hs Ls T. rewrite (OB s Hs T) in Ls. lia. }
    { exact F0. }
    destruct (sep_erase _ B HS HB) as [S1 [Er1 [HS1 I1]]].
    rewrite (loop_open fuel c d st B S1 L NeB (or_intror EB) Hhi Er1) in E1. rewrite E1. clear E1.
    set (touching := sc_have st && (s_hi (sc_cur st) >=? c)).
    set (S2 := if sc_have st && negb touching then set_insert (sc_cur st) S1 else S1).
    set (Lo := if touching then s_lo (sc_cur st) else c).
    assert (M1 : merge_first c d B st S1 =
                 mk_scan S2 true (mk_sr Lo (s_hi B) (sc_cc st) (sc_cc st)) (sc_cc st) (write_out (sc_cc st) B (sc_out st))).
    { unfold merge_first, S2, Lo, touching. replace (Z.min (s_lo B) c) with c by lia.
      replace (Z.max (s_hi B) d) with (s_hi B) by lia. replace (Z.max d (s_hi B)) with (s_hi B) by lia.
      destruct (sc_have st) eqn:Hh; [|reflexivity]. cbn [andb].
      destruct (g_cur st G Hh) as [_ [Q1 [Q2 _]]].
      destruct (s_hi (sc_cur st) >=? c); cbn [negb]; rewrite ?Q1, ?Q2; reflexivity. }
    rewrite M1.
    assert (HS2 : sepset S2).
    { unfold S2. destruct (sc_have st && negb touching) eqn:K; [|exact HS1].
      assert (Hh : sc_have st = true) by lia. destruct (g_cur st G Hh) as [Q1 [_ [_ Ap]]].
      apply sep_insert; [exact HS1|exact Q1|]. intros s Hs. apply Ap. apply I1, Hs. }
    assert (I2 : forall s, In s S2 <-> (In s (sc_data st) /\ s <> B) \/ (sc_have st = true /\ touching = false /\ s = sc_cur st)).
    { intros s. unfold S2. destruct (sc_have st) eqn:Hh; cbn [andb].
      - destruct touching; cbn [negb].
        + rewrite I1. split; [tauto|]. intros [K|[_ [K _]]]; [exact K|discriminate K].
        + rewrite (insert_in _ _ (ss_sorted _ HS1)), I1. tauto.
      - rewrite I1. split; [tauto|]. intros [K|[K _]]; [exact K|discriminate K]. }
    assert (Same : forall s, s_lo B < s_lo s -> (In s (sc_data st) <-> In s S2)).
    { intros s Ls. rewrite I2. split.
      - intros Hs. left. split; [exact Hs|intros ->; lia].
      - intros [[Hs _]|[Hh [_ ->]]]; [exact Hs|]. specialize (Hhi Hh). specialize (Hc Hh). lia. }
    rewrite (loop_skip fuel c d _ true (s_lo B)); cbn [sc_data].
    2: exact HS2.
    2:{ apply (at_change (sc_data st)); [apply next_at; assumption|exact Same]. }
    2:{ intros s Hs Ls T. unfold touch in T. lia. }
    2:{ pose proof (count_gt_eq (s_lo B) (sc_data st) S2 (ss_sorted _ HS) (ss_sorted _ HS2) Same). lia. }
    eexists _, true. split; [reflexivity|].
    apply opening_post; try assumption.
    + apply (ss_sorted _ HS2).
    + intros s. rewrite I2. unfold member. split.
      * intros [[Hs N1]|[Hh [Ht ->]]].
        -- split; [left; exact Hs|]. intros T. exact (N1 (OB s Hs T)).
        -- split; [right; split; [exact Hh|reflexivity]|]. unfold touching in Ht. rewrite Hh in Ht. cbn [andb] in Ht.
           unfold touch. lia.
      * intros [[Hs|[Hh ->]] NT].
        -- left. split; [exact Hs|intros ->; exact (NT TB)].
        -- right. split; [exact Hh|]. split; [|reflexivity]. unfold touching. rewrite Hh. cbn [andb].
           unfold touch in NT. specialize (Hc Hh). lia.
    + unfold Lo. destruct touching eqn:Ht; unfold touching in Ht.
      * right. assert (Hh : sc_have st = true) by lia. exists (sc_cur st). split; [right; split; [exact Hh|reflexivity]|].
        specialize (Hhi Hh). split; [lia|reflexivity].
      * left. split; [reflexivity|]. intros m [Hm|[Hh ->]]; [specialize (NA m Hm); lia|].
        rewrite Hh in Ht. cbn [andb] in Ht. lia.
    + right. exists B. split; [left; exact HB|]. split; [exact EB|reflexivity].
    + intros s Hs. exact (out_one c d _ _ _ (sc_data st) s Hs HB TB).
    + intros x y Hx. rewrite !out_sum_write by exact Hx.
      pose proof (scan_sum_erase _ _ _ x y Er1).
      assert (Q : scan_sum S2 x y = scan_sum S1 x y).
      { unfold S2. destruct (sc_have st && negb touching) eqn:K; [|reflexivity]. apply scan_sum_insert.
        assert (Hh : sc_have st = true) by lia. destruct (g_cur st G Hh) as [_ [M _]]. lia. }
      lia.
  - (* only at the start *)
    apply Z.eqb_eq in EA. pose proof (ss_ne _ HS A HA) as NeA.
    assert (kA : k < s_lo A). { destruct (Z_le_gt_dec (s_lo A) k) as [Q|Q]; [|lia]. specialize (Sk A HA Q). lia. }
    assert (TA : touch c d A) by (unfold touch; lia).
    assert (OA : forall s, In s (sc_data st) -> touch c d s -> s = A).
    { intros s Hs T. destruct (OT s Hs T) as [Q|Q]; [|specialize (NB s Hs); lia].
      destruct (ss_sep _ HS s A Hs HA) as [->|P]; [reflexivity|]. unfold apart in P. pose proof (ss_ne _ HS s Hs). lia. }
    destruct (loop_reach (Datatypes.S (length (sc_data st))) c d st false A k it HS At HA kA TA) as [fuel [E1 F1]].
    { intros s Hs Ls T. rewrite (OA s Hs T) in Ls. lia. }
    { exact F0. }
    destruct (sep_erase _ A HS HA) as [S1 [Er1 [HS1 I1]]].
    rewrite (loop_open fuel c d st A S1 L NeA (or_introl EA) Hhi Er1) in E1. rewrite E1. clear E1.
    set (q1 := mk_sr (s_lo A) d (sc_cc st) (sc_cc st)).
    set (S2 := if sc_have st then set_insert (sc_cur st) S1 else S1).
    assert (CurFar : sc_have st = true -> s_hi (sc_cur st) < s_lo A).
    { intros Hh. destruct (g_cur st G Hh) as [_ [_ [_ Ap]]]. specialize (Ap A HA). specialize (Hc Hh). unfold apart in Ap. lia. }
    assert (M1 : merge_first c d A st S1 = mk_scan S2 true q1 (sc_cc st) (write_out (sc_cc st) A (sc_out st))).
    { unfold merge_first, S2, q1. replace (Z.min (s_lo A) c) with (s_lo A) by lia. replace (Z.max (s_hi A) d) with d by lia.
      destruct (sc_have st) eqn:Hh; [|reflexivity]. specialize (CurFar eq_refl).
      replace (s_hi (sc_cur st) >=? c) with false by lia. reflexivity. }
    rewrite M1.
    assert (HS2 : sepset S2).
    { unfold S2. destruct (sc_have st) eqn:Hh; [|exact HS1]. destruct (g_cur st G Hh) as [Q1 [_ [_ Ap]]].
      apply sep_insert; [exact HS1|exact Q1|]. intros s Hs. apply Ap. apply I1, Hs. }
    assert (I2 : forall s, In s S2 <-> (In s (sc_data st) /\ s <> A) \/ (sc_have st = true /\ s = sc_cur st)).
    { intros s. unfold S2. destruct (sc_have st) eqn:Hh.
      - rewrite (insert_in _ _ (ss_sorted _ HS1)), I1. tauto.
      - rewrite I1. split; [tauto|]. intros [K|[K _]]; [exact K|discriminate K]. }
    assert (Same : forall s, s_lo A < s_lo s -> (In s (sc_data st) <-> In s S2)).
    { intros s Ls. rewrite I2. split.
      - intros Hs. left. split; [exact Hs|intros ->; lia].
      - intros [[Hs _]|[Hh ->]]; [exact Hs|]. specialize (CurFar Hh). destruct (g_cur st G Hh) as [Q1 _]. lia. }
    rewrite (loop_skip fuel c d _ true (s_lo A)); cbn [sc_data].
    2: exact HS2.
    2:{ apply (at_change (sc_data st)); [apply next_at; assumption|exact Same]. }
    2:{ intros s Hs Ls T. apply Same in Hs; [|exact Ls]. rewrite (OA s Hs T) in Ls. lia. }
    2:{ pose proof (count_gt_eq (s_lo A) (sc_data st) S2 (ss_sorted _ HS) (ss_sorted _ HS2) Same). lia. }
    eexists _, true. split; [reflexivity|].
    apply opening_post; try assumption.
    + apply (ss_sorted _ HS2).
    + intros s. rewrite I2. unfold member. split.
      * intros [[Hs N1]|[Hh ->]].
        -- split; [left; exact Hs|]. intros T. exact (N1 (OA s Hs T)).
        -- split; [right; split; [exact Hh|reflexivity]|]. unfold touch. specialize (CurFar Hh). lia.
      * intros [[Hs|[Hh ->]] NT].
        -- left; split; [exact Hs|intros ->; exact (NT TA)].
        -- right; split; [exact Hh|reflexivity].
    + right. exists A. split; [left; exact HA|]. split; [exact EA|reflexivity].
    + left. split; [reflexivity|]. intros m [Hm|[Hh ->]]; [specialize (NB m Hm); lia|]. specialize (Hc Hh). lia.
    + intros s Hs. exact (out_one c d _ _ _ (sc_data st) s Hs HA TA).
    + intros x y Hx. rewrite !out_sum_write by exact Hx.
      pose proof (scan_sum_erase _ _ _ x y Er1).
      assert (Q : scan_sum S2 x y = scan_sum S1 x y).
      { unfold S2. destruct (sc_have st) eqn:Hh; [|reflexivity]. apply scan_sum_insert.
        destruct (g_cur st G Hh) as [_ [M _]]. lia. }
      lia.
  - (* neither *)
    assert (NT : forall s, In s (sc_data st) -> ~ touch c d s).
    { intros s Hs T. destruct (OT s Hs T) as [Q|Q]; [specialize (NA s Hs); lia|specialize (NB s Hs); lia]. }
    rewrite (loop_skip _ c d st false k it HS At); [|intros s Hs _; exact (NT s Hs)|exact F0].
    exists st, false. split; [reflexivity|]. apply opening_rest; assumption.
Qed.

Lemma processEdge_spec c d st : good st -> c < d ->
  (forall y, c <= y < d -> covers st y) \/ (forall y, c <= y < d -> ~ covers st y) ->
  (sc_have st = true -> s_lo (sc_cur st) < c) ->
  exists st', processEdge c d st = Some st' /\ post c d st st'.
Proof.
  intros G L K Hc. pose proof (g_sep st G) as HS. unfold processEdge.
  destruct (sc_data st) as [|s0 S0] eqn:ES.
  - cbn [bind]. eexists. split; [reflexivity|]. destruct K as [K|K].
    + destruct (covered_in_one st c d G L K) as [r [[Hr|[Hh ->]] [L1 L2]]].
      * rewrite ES in Hr. contradiction.
      * apply closing_cur; auto.
    + apply opening_rest; auto. rewrite ES. intros s [].
  - assert (NE : s0 :: S0 <> []) by discriminate.
    rewrite <- ES in *. clear s0 S0 ES.
    destruct (start_iter c d (sc_data st) HS NE) as [it [k [E [At Sk]]]].
    rewrite E. cbn [bind]. destruct K as [K|K].
    + destruct (covered_in_one st c d G L K) as [r [[Hr|[Hh ->]] [L1 L2]]].
      * assert (kr : k < s_lo r). { destruct (Z_le_gt_dec (s_lo r) k) as [Q|Q]; [|lia]. specialize (Sk r Hr Q). lia. }
        destruct (loop_reach (Datatypes.S (length (sc_data st))) c d st false r k it HS At Hr kr) as [fuel [E1 _]].
        { unfold touch. lia. }
        { intros s Hs Ls T. unfold touch in T. pose proof (ss_ne _ HS r Hr).
          destruct (ss_sep _ HS s r Hs Hr) as [->|P]; [lia|]. unfold apart in P. lia. }
        { pose proof (count_gt_all k (sc_data st)). lia. }
        rewrite E1. destruct (closing_data c d st r fuel false G L Hr L1 L2 Hc) as [st' [E2 P]].
        rewrite E2. cbn [bind]. exists st'. split; [reflexivity|exact P].
      * destruct (g_cur st G Hh) as [_ [_ [_ Ap]]].
        rewrite (loop_skip _ c d st false k it HS At).
        -- cbn [bind]. eexists. split; [reflexivity|]. apply closing_cur; auto.
        -- intros s Hs _ T. specialize (Ap s Hs). unfold apart in Ap. unfold touch in T. lia.
        -- pose proof (count_gt_all k (sc_data st)). lia.
    + destruct (opening_loop c d st it k G L K Hc At Sk) as [st' [ep [E1 P]]].
      rewrite E1. cbn [bind]. eexists. split; [reflexivity|exact P].
Qed.
