(* connectivity_extraction: the order in which the scan reports edges, and the graph that
   the functor makes of them. *)
From Verif Require Import Base Units Outcome Scan90Spec Poly90Spec Poly90Model Poly90Proofs GeoSpec IvlModel RectModel SegModel PolySpec PolyModel PolyEdge ScanBaseModel SnapModel SnapSpec SnapProofs ArbSpec ArbOrder ArbSums ArbModel ArbMaps ArbLess ArbLine ArbColumn ArbScan ArbBool ArbResult ArbSetModel ArbMergeSpec ArbMergeModel ArbConnModel ArbMergeProofs.
From Coq Require Import Reals Lra Sorting.Sorted Sorting.Permutation.

(* ---------- the edges are reported column by column ---------- *)
Definition at_x (X : Z) (e : seg) : Prop := px (s_low e) = X.
Definition tail_at (X : Z) (out out' : list osides) : Prop := exists t, out' = out ++ t /\ forall o, In o t -> at_x X (fst o).
Lemma tail_refl X out : tail_at X out out.
Proof. exists []. split; [symmetry; apply app_nil_r|intros o []]. Qed.
Lemma tail_trans X a b c : tail_at X a b -> tail_at X b c -> tail_at X a c.
Proof. intros [t [-> T]] [u [-> U]]. exists (t ++ u). split; [symmetry; apply app_assoc|]. intros o H. apply in_app_or in H as [H|H]; auto. Qed.
Lemma tail_write X out e a b : at_x X e -> tail_at X out (write_out out e a b).
Proof. intros H. unfold write_out. destruct (zs_eqb _ _); [apply tail_refl|]. eexists. split; [reflexivity|]. intros o [<-|[]]. exact H. Qed.
Lemma tail_ins X ins : (forall a : elem, In a ins -> at_x X (fst a)) -> forall base out set, tail_at X out (fst (write_ins base ins out set)).
Proof.
  induction ins as [|[he m] ins IH]; intros H base out set; cbn [write_ins]; [apply tail_refl|]. cbv zeta.
  apply (tail_trans X _ (write_out out he (pm_merge m base) base)); [apply tail_write, (H (he, m)); left; reflexivity|]. apply IH. intros a A. apply H. right. exact A.
Qed.
Definition opt_at (X : Z) (o : option seg) : Prop := forall e, o = Some e -> at_x X e.
Record hinv (X : Z) (out : list osides) (rest : list vprop) (s : hstate) : Prop := {
  i_out : tail_at X out (h_out s);
  i_ins : forall a, In a (h_ins s) -> at_x X (fst a);
  i_ea : opt_at X (h_ea s); i_eb : opt_at X (h_eb s);
  i_rest : exists t, rest = t ++ h_rest s;
  i_first : h_first s = true -> exists e r, h_rest s = e :: r /\ at_x X (fst e) }.
Lemma flush_inv X out rest d s s1 : hinv X out rest s -> flush X d s = Ok s1 -> hinv X out rest s1 /\ h_rest s1 = h_rest s /\ h_first s1 = h_first s.
Proof.
  intros I. unfold flush. destruct (props_below _ d (h_cur s)) as [[bl cur]| |]; cbn [obind]; cbv iota beta; try discriminate.
  destruct (match h_vb s with [] => Ok (h_out s) | _ :: _ => match h_eb s with Some e => Ok (write_out (h_out s) e bl (pm_merge (h_vb s) bl)) | None => Undefined end end) as [o1| |] eqn:Q; cbn [obind]; try discriminate.
  assert (T1 : tail_at X (h_out s) o1).
  { destruct (h_vb s); [assert (h_out s = o1) by congruence; subst; apply tail_refl|]. pose proof (i_eb _ _ _ _ I) as IB. destruct (h_eb s) as [e|]; [|discriminate]. match type of Q with Ok ?t = _ => assert (o1 = t) by congruence end. subst o1. apply tail_write, IB. reflexivity. }
  pose proof (tail_ins X (h_ins s) (i_ins _ _ _ _ I) (pm_merge (h_vb s) bl) o1 (h_set s)) as T2. destruct (write_ins (pm_merge (h_vb s) bl) (h_ins s) o1 (h_set s)) as [o2 set2]. cbn [fst] in T2. intros H.
  match type of H with Ok ?t = _ => assert (s1 = t) by congruence end. subst s1. split; [|split; reflexivity]. constructor; cbn [h_out h_ins h_ea h_eb h_rest h_first]; try apply I.
  apply (tail_trans X _ (h_out s)); [apply I|]. apply (tail_trans X _ o1); assumption.
Qed.
Lemma swap_inv X out rest s : hinv X out rest s -> hinv X out rest (h_swap s).
Proof. intros I. constructor; cbn [h_swap h_out h_ins h_ea h_eb h_rest h_first]; try apply I. intros a []. Qed.
Lemma at_inv X out rest s y : hinv X out rest s -> hinv X out rest (h_at s y).
Proof. intros I. constructor; cbn [h_at h_out h_ins h_ea h_eb h_rest h_first]; apply I. Qed.
Lemma ins_add_at X ins he k c : (forall a : elem, In a ins -> at_x X (fst a)) -> at_x X he -> forall a, In a (ins_add ins he k c) -> at_x X (fst a).
Proof.
  intros H A a. unfold ins_add. destruct (rev ins) as [|[he' m] r] eqn:R; [intros [<-|[]]; exact A|].
  assert (E : ins = rev r ++ [(he', m)]) by (rewrite <- (rev_involutive ins), R; reflexivity). destruct (seg_eqb he' he); intros K; apply in_app_or in K as [K|[K|[]]]; try (subst a; exact A); apply H; [rewrite E; apply in_or_app; left; exact K|exact K].
Qed.
Lemma read_inv X out rest s s1 : hinv X out rest s -> (exists e r, h_rest s = e :: r /\ at_x X (fst e)) -> h_read s = Ok s1 -> hinv X out rest s1.
Proof.
  intros I [[he [k c]] [r [R A]]]. cbn [fst] in A. unfold h_read. rewrite R. set (cons := if sb_vertical he then _ else _).
  assert (C : hinv X out rest cons).
  { destruct (i_rest _ _ _ _ I) as [t T]. rewrite R in T. assert (T' : exists t', rest = t' ++ r) by (exists (t ++ [(he, (k, c))]); rewrite <- app_assoc; exact T).
    unfold cons. destruct (sb_vertical he); constructor; cbn [h_out h_ins h_ea h_eb h_rest h_first]; try apply I; try exact T'; try discriminate.
    - intros e E. assert (he = e) by congruence. subst. exact A.
    - apply ins_add_at; [apply I|exact A]. }
  destruct (h_vb s); [intros H; assert (cons = s1) by congruence; subst s1; exact C|]. destruct (h_eb s) as [eb|] eqn:EB; [|discriminate]. destruct (py (s_high eb) <? py (s_low he)); [|intros H; assert (cons = s1) by congruence; subst s1; exact C].
  intros H. match type of H with Ok ?t = _ => assert (s1 = t) by congruence end. subst s1. constructor; cbn [h_out h_ins h_ea h_eb h_rest h_first]; try apply I; try discriminate.
  - rewrite <- EB. apply I.
  - rewrite <- R. apply I.
Qed.
Lemma loop_inv X out rest d : forall fuel s s1, hinv X out rest s -> h_loop fuel X d s = Ok s1 -> hinv X out rest s1.
Proof.
  induction fuel as [|fuel IH]; intros s s1 I; cbn [h_loop]; [discriminate|]. destruct (h_stop X s) eqn:ST.
  - destruct (flush X d s) as [s2| |] eqn:FL; cbn [obind]; try discriminate. destruct (flush_inv X out rest d s s2 I FL) as [I2 [R2 _]]. destruct (col_end X (h_rest s2)) eqn:CE.
    + destruct (h_va s2); [intros H; assert (s2 = s1) by congruence; subst; exact I2|]. destruct (h_ea s2) as [ea|]; [|discriminate]. apply IH, at_inv, swap_inv, I2.
    + destruct (h_read (h_swap s2)) as [s3| |] eqn:RD; cbn [obind]; try discriminate. apply IH. apply (read_inv X out rest (h_swap s2)); [apply swap_inv, I2| |exact RD]. cbn [h_swap h_rest].
      destruct (h_rest s2) as [|e r]; [discriminate|]. exists e, r. split; [reflexivity|]. unfold col_end in CE. unfold at_x. lia.
  - destruct (h_read s) as [s3| |] eqn:RD; cbn [obind]; try discriminate. apply IH. apply (read_inv X out rest s); [exact I| |exact RD].
    unfold h_stop in ST. pose proof (i_first _ _ _ _ I) as IF. destruct (h_first s); [apply IF; reflexivity|]. destruct (h_rest s) as [|e r]; [discriminate|]. exists e, r. split; [reflexivity|]. cbn [negb andb] in ST. unfold at_x. lia.
Qed.
Definition cols (out : list osides) : Prop := StronglySorted (fun a b : osides => px (s_low (fst a)) <= px (s_low (fst b))) out.
Lemma cols_tail X out out' : cols out -> (forall o, In o out -> px (s_low (fst o)) <= X) -> tail_at X out out' -> cols out' /\ forall o, In o out' -> px (s_low (fst o)) <= X.
Proof.
  intros C B [t [-> T]]. split.
  - clear - C B T. induction out as [|o out IH]; cbn [app].
    + induction t as [|a t IH]; [constructor|]. constructor; [apply IH; intros b K; apply T; right; exact K|]. apply Forall_forall. intros b K. pose proof (T a (or_introl eq_refl)) as A1. pose proof (T b (or_intror K)) as A2. unfold at_x in *. lia.
    + apply StronglySorted_inv in C as [C F]. constructor; [apply IH; [exact C|intros a K; apply B; right; exact K]|]. rewrite Forall_forall in *. intros b K. apply in_app_or in K as [K|K]; [apply F, K|]. pose proof (T b K) as A. pose proof (B o (or_introl eq_refl)). unfold at_x in A. lia.
  - intros o K. apply in_app_or in K as [K|K]; [apply B, K|]. pose proof (T o K) as A. unfold at_x in A. lia.
Qed.
Lemma ss_suffix {A : Type} (R : A -> A -> Prop) a b : StronglySorted R (a ++ b) -> StronglySorted R b.
Proof. induction a as [|c a IH]; intros H; [exact H|]. apply StronglySorted_inv in H as [H _]. apply IH, H. Qed.
Definition data_cols (l : list vprop) : Prop := StronglySorted (fun a b : vprop => px (s_low (fst a)) <= px (s_low (fst b))) l.
Lemma scan_cols : forall fuel rest q d out out', scan_loop fuel rest q d out = Ok out' -> data_cols rest -> cols out ->
  (forall o e, In o out -> In e rest -> px (s_low (fst o)) <= px (s_low (fst e))) -> cols out'.
Proof.
  induction fuel as [|fuel IH]; intros rest q d out out' H DC C B.
  - destruct rest as [|e rest]; cbn [scan_loop] in H; [|discriminate]. destruct (remove_retired INT_MAX q d) as [[q1 d1]| |]; cbn [obind] in H; cbv iota beta in H; try discriminate. assert (out = out') by congruence. subst. exact C.
  - destruct rest as [|e rest]; cbn [scan_loop] in H.
    { destruct (remove_retired INT_MAX q d) as [[q1 d1]| |]; cbn [obind] in H; cbv iota beta in H; try discriminate. assert (out = out') by congruence. subst. exact C. }
    set (X := px (s_low (fst e))) in *. destruct (chk (X - 1)) as [xm| |]; cbn [obind] in H; try discriminate. destruct (remove_retired xm q d) as [[q1 d1]| |]; cbn [obind] in H; cbv iota beta in H; try discriminate.
    unfold handle_input_events in H. set (s0 := mk_h [] [] None None [] 0 INT_MIN true (e :: rest) out []) in *.
    destruct (h_loop (2 * length (e :: rest) + 2) X d1 s0) as [s| |] eqn:HL; cbn [obind] in H; cbv iota beta in H; try discriminate.
    assert (I : hinv X out (e :: rest) s).
    { apply (loop_inv X out (e :: rest) d1 (2 * length (e :: rest) + 2) s0 s); [|exact HL]. unfold s0. constructor; cbn [h_out h_ins h_ea h_eb h_rest h_first]; [apply tail_refl|intros a []|discriminate|discriminate|exists []; reflexivity|]. intros _. exists e, rest. split; reflexivity. }
    destruct (remove_retired X q1 d1) as [[q2 d2]| |]; cbn [obind] in H; cbv iota beta in H; try discriminate. destruct (insert_new X (h_set s) q2 d2) as [[q3 d3]| |]; cbn [obind] in H; cbv iota beta in H; try discriminate.
    destruct (cols_tail X out (h_out s) C) as [C1 B1]; [intros o O; apply (B o e O); left; reflexivity|apply I|]. destruct (i_rest _ _ _ _ I) as [t T].
    apply (IH _ _ _ _ _ H); [apply (ss_suffix _ t); unfold data_cols in DC; rewrite T in DC; exact DC|exact C1|].
    intros o f O F. apply B1 in O. assert (K : In f (e :: rest)) by (rewrite T; apply in_or_app; right; exact F). destruct K as [<-|K]; [exact O|]. apply StronglySorted_inv in DC as [_ DC]. rewrite Forall_forall in DC. specialize (DC f K). fold X in DC. lia.
Qed.
Lemma ev_px a b : ev_le a b -> px (s_low a) <= px (s_low b).
Proof. intros [H|[H|[H _]]]; [lia|lia|rewrite H; lia]. Qed.
Lemma scan_sorted (l data : list vprop) out : noded (map fst l) -> good_props l -> vd_sort l = Ok data -> scan data = Ok out -> cols out.
Proof.
  intros nod G S H. assert (ord : forall e, In e l -> ordered (fst e)) by (intros e K; apply G, K). assert (fit : forall e, In e l -> fits (fst e)) by (intros e K; apply G, K).
  destruct (vd_sort_ok l nod ord fit) as [m [S1 [S2 P]]]. assert (m = data) by congruence. subst m. apply (scan_cols _ _ _ _ _ _ H); [|constructor|intros o e []].
  clear - S2. unfold ev_srt in S2. unfold data_cols. induction S2 as [|a m SS IH F]; constructor; [exact IH|]. rewrite Forall_forall in *. intros b K. apply ev_px, F, K.
Qed.

(* ---------- the sets at the points ---------- *)
Lemma zset_add_in ks : forall s j, In j (zset_add ks s) <-> In j ks \/ In j s.
Proof. unfold zset_add. induction ks as [|k ks IH]; intros s j; cbn [fold_left In]; [tauto|]. rewrite IH, zset_in. intuition congruence. Qed.
Lemma zset_add_sorted ks : forall s, StronglySorted Z.lt s -> StronglySorted Z.lt (zset_add ks s).
Proof. unfold zset_add. induction ks as [|k ks IH]; intros s S; cbn [fold_left]; [exact S|]. apply IH, zset_sorted, S. Qed.
Definition p_less (p q : point) : Prop := px p < px q \/ px p = px q /\ py p < py q.
Lemma pt_less_iff p q : pt_less p q = true <-> p_less p q.
Proof. unfold pt_less, p_less. rewrite orb_true_iff, andb_true_iff, !Z.ltb_lt, Z.eqb_eq. tauto. Qed.
Lemma pt_tri p q : pt_less p q = false -> pt_less q p = false -> p = q.
Proof.
  intros A B. apply not_true_iff_false in A, B. rewrite pt_less_iff in A, B. unfold p_less in *. destruct p as [a b], q as [c d]. cbn [px py] in *. f_equal; lia.
Qed.
Definition srt_map (m : ymap) : Prop := StronglySorted (fun a b : point * list Z => p_less (fst a) (fst b)) m.
Definition sets_map (m : ymap) : Prop := forall p s, In (p, s) m -> StronglySorted Z.lt s.
Definition ym_in (p : point) (k : Z) (m : ymap) : Prop := exists s, In (p, s) m /\ In k s.
Lemma add_fst p ks m : forall q s, In (q, s) (ym_add p ks m) -> q = p \/ In q (map fst m).
Proof.
  induction m as [|[r t] m IH]; intros q s; cbn [ym_add]; [intros [H|[]]; left; congruence|]. destruct (pt_less p r); [|destruct (pt_less r p)]; intros H; cbn [map fst In].
  - destruct H as [H|[H|H]]; [left; congruence|right; left; congruence|right; right; apply (in_map fst _ _ H)].
  - destruct H as [H|H]; [right; left; congruence|]. destruct (IH q s H); auto.
  - destruct H as [H|H]; [right; left; congruence|right; right; apply (in_map fst _ _ H)].
Qed.
Lemma add_srt p ks m : srt_map m -> srt_map (ym_add p ks m).
Proof.
  unfold srt_map. induction m as [|[r t] m IH]; intros S; cbn [ym_add]; [constructor; constructor|]. pose proof (StronglySorted_inv S) as [S1 F]. rewrite Forall_forall in F. destruct (pt_less p r) eqn:A; [|destruct (pt_less r p) eqn:B].
  - apply pt_less_iff in A. constructor; [exact S|]. apply Forall_forall. intros a [<-|K]; cbn [fst]; [exact A|]. specialize (F a K). cbn [fst] in F. unfold p_less in *. lia.
  - apply pt_less_iff in B. constructor; [apply IH, S1|]. apply Forall_forall. intros [q s] K. cbn [fst]. apply add_fst in K as [->|K]; [exact B|]. apply in_map_iff in K as [a [<- K]]. apply (F a K).
  - constructor; [exact S1|]. apply Forall_forall. exact F.
Qed.
Lemma add_sets p ks m : sets_map m -> sets_map (ym_add p ks m).
Proof.
  induction m as [|[r t] m IH]; intros S q s; cbn [ym_add].
  - intros [H|[]]. assert (E : zset_add ks [] = s) by congruence. rewrite <- E. apply zset_add_sorted. constructor.
  - destruct (pt_less p r); [|destruct (pt_less r p)]; intros H.
    + destruct H as [H|H]; [|apply (S q), H]. assert (E : zset_add ks [] = s) by congruence. rewrite <- E. apply zset_add_sorted. constructor.
    + destruct H as [H|H]; [apply (S q); left; exact H|]. apply (IH (fun q s K => S q s (or_intror K)) q s H).
    + destruct H as [H|H]; [|apply (S q); right; exact H]. assert (E : zset_add ks t = s) by congruence. rewrite <- E. apply zset_add_sorted, (S r). left. reflexivity.
Qed.
Lemma add_in p ks m q k : ym_in q k (ym_add p ks m) <-> (q = p /\ In k ks) \/ ym_in q k m.
Proof.
  unfold ym_in. induction m as [|[r t] m IH]; cbn [ym_add].
  - split.
    + intros [s [[H|[]] K]]. assert (E1 : p = q) by congruence. assert (E2 : zset_add ks [] = s) by congruence. subst. apply zset_add_in in K as [K|[]]. auto.
    + intros [[-> K]|[s [[] _]]]. eexists. split; [left; reflexivity|]. apply zset_add_in. left. exact K.
  - destruct (pt_less p r) eqn:A; [|destruct (pt_less r p) eqn:B].
    + split.
      * intros [s [[H|H] K]]; [|right; exists s; split; assumption]. assert (E1 : p = q) by congruence. assert (E2 : zset_add ks [] = s) by congruence. subst. apply zset_add_in in K as [K|[]]. auto.
      * intros [[-> K]|[s [H K]]]; [eexists; split; [left; reflexivity|]; apply zset_add_in; left; exact K|exists s; split; [right; exact H|exact K]].
    + split.
      * intros [s [[H|H] K]]; [right; exists s; split; [left; exact H|exact K]|]. destruct (proj1 IH (ex_intro _ s (conj H K))) as [C|[s' [H' K']]]; [left; exact C|right; exists s'; split; [right; exact H'|exact K']].
      * intros [C|[s [[H|H] K]]]; [|exists s; split; [left; exact H|exact K]|].
        -- destruct (proj2 IH (or_introl C)) as [s [H K]]. exists s. split; [right; exact H|exact K].
        -- destruct (proj2 IH (or_intror (ex_intro _ s (conj H K)))) as [s' [H' K']]. exists s'. split; [right; exact H'|exact K'].
    + pose proof (pt_tri p r A B) as E. subst r. split.
      * intros [s [[H|H] K]]; [|right; exists s; split; [right; exact H|exact K]]. assert (E1 : p = q) by congruence. assert (E2 : zset_add ks t = s) by congruence. subst q s. apply zset_add_in in K as [K|K]; [auto|]. right. exists t. split; [left; reflexivity|exact K].
      * intros [[-> K]|[s [[H|H] K]]]; [eexists; split; [left; reflexivity|]; apply zset_add_in; left; exact K| |exists s; split; [right; exact H|exact K]].
        assert (E1 : p = q) by congruence. assert (E2 : t = s) by congruence. subst q s. eexists. split; [left; reflexivity|]. apply zset_add_in. right. exact K.
Qed.
Lemma pairs_in s : NoDup s -> forall i j, In (i, j) (all_pairs s) <-> i <> j /\ In i s /\ In j s.
Proof.
  induction s as [|k s IH]; intros N i j; cbn [all_pairs In]; [tauto|]. inversion N as [|? ? N1 N2]; subst. rewrite in_app_iff, (IH N2), in_flat_map. cbn [In]. split.
  - intros [[b [B [E|[E|[]]]]]|[A [B C]]]; [| |auto].
    + assert (k = i) by congruence. assert (b = j) by congruence. subst. split; [intros ->; contradiction|auto].
    + assert (k = j) by congruence. assert (b = i) by congruence. subst. split; [intros ->; contradiction|auto].
  - intros [A [[B|B] [C|C]]]; [congruence| | |right; auto]; subst; left; [exists j|exists i]; auto.
Qed.
Lemma lt_nodup s : StronglySorted Z.lt s -> NoDup s.
Proof. induction 1 as [|a s S IH F]; constructor; [|exact IH]. intros K. rewrite Forall_forall in F. specialize (F a K). lia. Qed.

(* ---------- process_previous_x ---------- *)
Lemma process_ok x : forall m acc g m' g', ce_process x acc m g = (m', g') -> srt_map (rev acc ++ m) ->
  srt_map m' /\ (forall e, In e m' -> In e (rev acc ++ m)) /\ (forall p s, In (p, s) (rev acc ++ m) -> x <= px p -> In (p, s) m') /\
  (forall c, In c g' -> In c g \/ exists p s, In (p, s) m /\ In c (all_pairs s)) /\
  (forall c, In c g -> In c g') /\ (forall p s c, In (p, s) m -> x <= px p -> In c (all_pairs s) -> In c g').
Proof.
  induction m as [|[p s] m IH]; intros acc g m' g' H S; cbn [ce_process] in H.
  - assert (rev acc = m') by congruence. assert (g = g') by congruence. subst. rewrite app_nil_r in *. split; [exact S|]. split; [auto|]. split; [auto|]. split; [auto|]. split; [auto|]. intros p s c [].
  - destruct (px p <? x) eqn:Q.
    + destruct (IH _ _ _ _ H) as [A [B [C [D [E F]]]]]; [cbn [rev app]; apply (ss_suffix _ (rev acc)); exact S|]. cbn [rev app] in *. split; [exact A|]. split; [intros e K; apply in_or_app; right; apply B, K|]. split; [|split; [|split]].
      * intros q t K X. apply C; [|exact X]. apply in_app_or in K as [K|K]; [|exact K]. exfalso. unfold srt_map in S. assert (L : px q <= px p).
        { clear - S K. induction (rev acc) as [|a r IHr]; [destruct K|]. cbn [app] in S. apply StronglySorted_inv in S as [S F]. destruct K as [->|K]; [|apply IHr; assumption]. rewrite Forall_forall in F. specialize (F (p, s)). cbn [fst] in F. unfold p_less in F. assert (J : In (p, s) (r ++ (p, s) :: m)) by (apply in_or_app; right; left; reflexivity). specialize (F J). lia. }
        lia.
      * intros c K. apply D in K as [K|[q [t [K1 K2]]]]; [left; exact K|right; exists q, t; split; [right; exact K1|exact K2]].
      * exact E.
      * intros q t c [K|K] X I; [assert (p = q) by congruence; subst; lia|]. apply (F q t c K X I).
    + destruct (IH _ _ _ _ H) as [A [B [C [D [E F]]]]]; [cbn [rev]; rewrite <- app_assoc; exact S|]. cbn [rev] in B, C. rewrite <- app_assoc in B, C. cbn [app] in B, C. split; [exact A|]. split; [exact B|]. split; [exact C|]. split; [|split].
      * intros c K. apply D in K as [K|[q [t [K1 K2]]]]; [|right; exists q, t; split; [right; exact K1|exact K2]]. apply in_app_or in K as [K|K]; [left; exact K|right; exists p, s; split; [left; reflexivity|exact K]].
      * intros c K. apply E, in_or_app. left. exact K.
      * intros q t c [K|K] X I; [|apply (F q t c K X I)]. apply E, in_or_app. right. assert (s = t) by congruence. subst. exact I.
Qed.

(* ---------- the graph ---------- *)
(* the nodes on the sides of the edges of [dn] with the end p *)
Definition seen (dn : list osides) (p : point) (k : Z) : Prop := exists e L R, In (e, (L, R)) dn /\ (s_low e = p \/ s_high e = p) /\ (In k L \/ In k R).
Lemma seen_snoc dn e L R p k : seen (dn ++ [(e, (L, R))]) p k <-> seen dn p k \/ ((s_low e = p \/ s_high e = p) /\ In k (L ++ R)).
Proof.
  unfold seen. rewrite in_app_iff. split.
  - intros [f [L' [R' [H [V K]]]]]. apply in_app_or in H as [H|[H|[]]]; [left; exists f, L', R'; auto|]. assert (e = f) by congruence. assert (L = L') by congruence. assert (R = R') by congruence. subst. right. auto.
  - intros [[f [L' [R' [H [V K]]]]]|[V K]]; [exists f, L', R'; split; [apply in_or_app; left; exact H|auto]|exists e, L, R; split; [apply in_or_app; right; left; reflexivity|auto]].
Qed.
Record cinv (dn : list osides) (x : Z) (m : ymap) (g : list (Z * Z)) : Prop := {
  c_srt : srt_map m; c_sets : sets_map m;
  c_sound : forall p k, ym_in p k m -> seen dn p k;
  c_full : forall p k, x <= px p -> seen dn p k -> ym_in p k m;
  c_graph : forall i j, In (i, j) g -> i <> j /\ exists p, seen dn p i /\ seen dn p j;
  c_done : forall p i j, px p < x -> i <> j -> seen dn p i -> seen dn p j -> In (i, j) g }.
Lemma in_both m p i j : srt_map m -> ym_in p i m -> ym_in p j m -> exists s, In (p, s) m /\ In i s /\ In j s.
Proof.
  intros S [s [A B]] [t [C D]]. exists s. split; [exact A|]. split; [exact B|]. assert (s = t) as ->; [|exact D]. clear - S A C. unfold srt_map in S. induction S as [|a m S IH F]; [destruct A|]. rewrite Forall_forall in F. destruct A as [A|A], C as [C|C].
  - congruence.
  - exfalso. subst a. specialize (F _ C). cbn [fst] in F. unfold p_less in F. lia.
  - exfalso. subst a. specialize (F _ A). cbn [fst] in F. unfold p_less in F. lia.
  - apply IH; assumption.
Qed.
Lemma process_inv dn x m g m' g' : cinv dn x m g -> ce_process x [] m g = (m', g') ->
  srt_map m' /\ sets_map m' /\ (forall p k, ym_in p k m' -> seen dn p k) /\ (forall p k, x <= px p -> seen dn p k -> ym_in p k m') /\
  (forall i j, In (i, j) g' -> i <> j /\ exists p, seen dn p i /\ seen dn p j) /\ (forall p i j, i <> j -> seen dn p i -> seen dn p j -> In (i, j) g').
Proof.
  intros I H. destruct (process_ok x m [] g m' g' H (c_srt _ _ _ _ I)) as [A [B [C [D [E F]]]]]. cbn [rev app] in *. split; [exact A|]. split; [intros p s K; apply (c_sets _ _ _ _ I p s), B, K|]. split; [|split; [|split]].
  - intros p k [s [K1 K2]]. apply (c_sound _ _ _ _ I). exists s. split; [apply B, K1|exact K2].
  - intros p k X K. destruct (c_full _ _ _ _ I p k X K) as [s [K1 K2]]. exists s. split; [apply C; assumption|exact K2].
  - intros i j K. apply D in K as [K|[p [s [K1 K2]]]]; [apply (c_graph _ _ _ _ I), K|]. apply pairs_in in K2 as [N [P Q]]; [|apply lt_nodup, (c_sets _ _ _ _ I p s K1)]. split; [exact N|]. exists p. split; apply (c_sound _ _ _ _ I); exists s; auto.
  - intros p i j N P Q. destruct (Z_lt_le_dec (px p) x) as [X|X]; [apply E, (c_done _ _ _ _ I p); assumption|].
    destruct (in_both m p i j (c_srt _ _ _ _ I) (c_full _ _ _ _ I p i X P) (c_full _ _ _ _ I p j X Q)) as [s [K1 [K2 K3]]]. apply (F p s _ K1 X). apply pairs_in; [apply lt_nodup, (c_sets _ _ _ _ I p s K1)|auto].
Qed.
Lemma out_inv dn x m g e L R : cinv dn x m g -> (forall o, In o dn -> px (s_low (fst o)) <= x) -> (dn = [] \/ x <= px (s_low e)) -> px (s_low e) <= px (s_high e) ->
  exists m' g', ce_out (x, (m, g)) (e, (L, R)) = (px (s_low e), (m', g')) /\ cinv (dn ++ [(e, (L, R))]) (px (s_low e)) m' g'.
Proof.
  intros I UP LE OR. unfold ce_out.
  assert (ST : exists m1 g1, (if negb (px (s_low e) =? x) then ce_process x [] m g else (m, g)) = (m1, g1) /\ cinv dn (px (s_low e)) m1 g1).
  { destruct (px (s_low e) =? x) eqn:Q; cbn [negb]; [exists m, g; split; [reflexivity|]; apply Z.eqb_eq in Q; rewrite Q; exact I|]. destruct (ce_process x [] m g) as [m1 g1] eqn:P. exists m1, g1. split; [reflexivity|].
    destruct (process_inv dn x m g m1 g1 I P) as [A [B [C [D [E F]]]]]. constructor; try assumption; [|intros p i j _; apply F]. intros p k X K. apply D; [|exact K]. destruct LE as [-> |LE]; [destruct K as [? [? [? [[] _]]]]|lia]. }
  destruct ST as [m1 [g1 [-> I1]]]. do 2 eexists. split; [reflexivity|]. constructor.
  - apply add_srt, add_srt, I1.
  - apply add_sets, add_sets, I1.
  - intros p k K. apply seen_snoc. apply add_in in K as [[-> K]|K]; [right; auto|]. apply add_in in K as [[-> K]|K]; [right; auto|]. left. apply (c_sound _ _ _ _ I1), K.
  - intros p k X K. rewrite !add_in. apply seen_snoc in K as [K|[[<- | <-] K]]; auto. right. right. apply (c_full _ _ _ _ I1); assumption.
  - intros i j K. apply (c_graph _ _ _ _ I1) in K as [N [p [P Q]]]. split; [exact N|]. exists p. split; apply seen_snoc; left; assumption.
  - intros p i j X N P Q. apply seen_snoc in P as [P|[[<- | <-] _]]; [|lia|lia]. apply seen_snoc in Q as [Q|[[<- | <-] _]]; [|lia|lia]. apply (c_done _ _ _ _ I1 p); assumption.
Qed.
Lemma fold_inv : forall os dn x m g, cinv dn x m g -> cols os -> (forall o, In o dn -> px (s_low (fst o)) <= x) -> (dn = [] \/ forall o, In o os -> x <= px (s_low (fst o))) -> (forall o, In o os -> px (s_low (fst o)) <= px (s_high (fst o))) ->
  exists x' m' g', fold_left ce_out os (x, (m, g)) = (x', (m', g')) /\ cinv (dn ++ os) x' m' g'.
Proof.
  induction os as [|[e [L R]] os IH]; intros dn x m g I C UP LE OR; [exists x, m, g; rewrite app_nil_r; auto|]. cbn [fold_left]. apply StronglySorted_inv in C as [C F]. rewrite Forall_forall in F. cbn [fst] in F.
  destruct (out_inv dn x m g e L R I UP) as [m1 [g1 [-> I1]]]; [destruct LE as [LE|LE]; [left; exact LE|right; apply (LE (e, (L, R))); left; reflexivity]|apply (OR (e, (L, R))); left; reflexivity|].
  destruct (IH (dn ++ [(e, (L, R))]) (px (s_low e)) m1 g1 I1 C) as [x' [m' [g' [E I2]]]].
  - intros o K. apply in_app_or in K as [K|[<-|[]]]; [|cbn [fst]; lia]. destruct LE as [-> |LE]; [destruct K|]. specialize (UP o K). specialize (LE (e, (L, R)) (or_introl eq_refl)). cbn [fst] in LE. lia.
  - right. intros o K. apply (F o K).
  - intros o K. apply OR. right. exact K.
  - exists x', m', g'. split; [exact E|]. rewrite <- app_assoc in I2. exact I2.
Qed.
Theorem graph_ok (os : list osides) : cols os -> (forall o, In o os -> px (s_low (fst o)) <= px (s_high (fst o))) ->
  forall i j, In (i, j) (let '(x, (m, g)) := fold_left ce_out os (INT_MAX, ([], [])) in snd (ce_process x [] m g)) <-> i <> j /\ exists p, seen os p i /\ seen os p j.
Proof.
  intros C OR i j. destruct (fold_inv os [] INT_MAX [] []) as [x [m [g [E0 I]]]]; [|exact C|intros o []|left; reflexivity|exact OR|].
  - constructor; [constructor|intros p s []|intros p k [s [[] _]]|intros p k _ [? [? [? [[] _]]]]|intros a b []|intros p a b _ _ [? [? [? [[] _]]]]].
  - match goal with |- context [fold_left ce_out os ?t] => replace (fold_left ce_out os t) with ((x, (m, g)) : ce_state) by (symmetry; exact E0) end. cbn [app] in I. destruct (ce_process x [] m g) as [m' g'] eqn:P. cbn [snd]. destruct (process_inv os x m g m' g' I P) as [_ [_ [_ [_ [E F]]]]]. split; [apply E|]. intros [N [p [A B]]]. apply (F p); assumption.
Qed.
