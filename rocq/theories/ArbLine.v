(* The map of the scan line: lookups, insertion and removal of edges. *)
From Verif Require Import Base Units Outcome Scan90Spec Poly90Spec Poly90Model Poly90Proofs GeoSpec IvlModel RectModel SegModel PolyModel PolyEdge ScanBaseModel ScanBaseOab SnapModel SnapSpec SnapProofs SnapLoops ArbSpec ArbOrder ArbSums ArbModel ArbMaps ArbLess.
From Coq Require Import Reals Lra Sorting.Sorted.

Lemma ss_filter {A : Type} (R : A -> A -> Prop) (f : A -> bool) l : StronglySorted R l -> StronglySorted R (filter f l).
Proof.
  induction l as [|a l IH]; intros H; [constructor|]. apply StronglySorted_inv in H as [H F]. cbn [filter]. destruct (f a); [|apply IH, H].
  constructor; [apply IH, H|]. rewrite Forall_forall in *. intros b B. apply filter_In in B. apply F, B.
Qed.
Lemma ss_nth {A : Type} (R : A -> A -> Prop) l i j a b : StronglySorted R l -> (i < j)%nat -> nth_error l i = Some a -> nth_error l j = Some b -> R a b.
Proof.
  intros H. revert i j. induction H as [|c l H IH F]; intros i j L I J; [destruct i; discriminate|].
  destruct j as [|j]; [lia|]. destruct i as [|i]; cbn [nth_error] in *.
  - assert (c = a) as -> by congruence. rewrite Forall_forall in F. apply F. eapply nth_error_In. exact J.
  - apply (IH i j); [lia|assumption|assumption].
Qed.
Lemma nth_lt {A : Type} (l : list A) i : (i < length l)%nat -> exists a, nth_error l i = Some a.
Proof. intros H. destruct (nth_error l i) as [a|] eqn:N; [exists a; reflexivity|]. apply nth_error_None in N. lia. Qed.
Lemma lt_nth {A : Type} (l : list A) i a : nth_error l i = Some a -> (i < length l)%nat.
Proof. intros H. apply nth_error_Some. congruence. Qed.
Lemma nth_skip {A : Type} (l : list A) i j : nth_error (skipn i l) j = nth_error l (i + j).
Proof. revert l. induction i as [|i IH]; intros l; [reflexivity|]. destruct l as [|a l]; cbn [skipn nth_error Nat.add]; [destruct j; reflexivity|apply IH]. Qed.

Lemma nodup_r {A : Type} (a b : list A) : NoDup (a ++ b) -> NoDup b.
Proof. induction a as [|x a IH]; intros N; [exact N|]. apply IH. inversion N; assumption. Qed.

Section line.
  Variable l : list vprop.
  Hypothesis nod : noded (map fst l).
  Hypothesis ord : forall e, In e l -> ordered (fst e).
  Hypothesis fit : forall e, In e l -> fits (fst e).
  Hypothesis clo : closed l.
  Let E : list seg := map fst l.
  Let ordE : forall s, In s E -> ordered s := ordE l ord.
  Lemma fitE s : In s E -> fits s.
  Proof. intros H. apply in_map_iff in H as [e [<- H]]. apply fit, H. Qed.

  Definition below (a b : elem) : Prop := lte (fst a) (fst b).
  Definition good (d : list elem) : Prop := StronglySorted below d /\
    forall a, In a d -> In (fst a) E /\ px (s_low (fst a)) < px (s_high (fst a)) /\ wf (snd a) /\ forall k, get (snd a) k = cum l k (fst a).
  Definition has (d : list elem) (P : seg -> Prop) : Prop :=
    forall e, In e (map fst d) <-> In e E /\ px (s_low e) < px (s_high e) /\ P e.
  (* crossing the line x, seen from the left *)
  Definition left_at (x : Z) (e : seg) : Prop := px (s_low e) < x <= px (s_high e).
  Definition all_at (x : Z) (d : list elem) : Prop := forall a, In a d -> left_at x (fst a).

  Lemma good_nil : good [].
  Proof. split; [constructor|]. intros a []. Qed.
  Lemma good_filter f d : good d -> good (filter f d).
  Proof. intros [S G]. split; [apply ss_filter, S|]. intros a A. apply filter_In in A. apply G, A. Qed.
  Lemma good_cons a d : good (a :: d) -> good d /\ forall b, In b d -> below a b.
  Proof.
    intros [S G]. apply StronglySorted_inv in S as [S F]. split; [split; [exact S|]|].
    - intros b B. apply G. right. exact B.
    - apply Forall_forall, F.
  Qed.
  Lemma good_nodup d : good d -> NoDup (map fst d).
  Proof.
    induction d as [|a d IH]; intros G; [constructor|]. destruct (good_cons a d G) as [G1 G2]. cbn [map]. constructor; [|apply IH, G1].
    intros H. apply in_map_iff in H as [b [Q B]]. apply G2 in B. unfold below in B. rewrite Q in B. apply (lte_irrefl _ B).
  Qed.
  Lemma good_le d x i j a b : good d -> all_at x d -> (i < j)%nat -> nth_error d i = Some a -> nth_error d j = Some b ->
    (height (fst a) (IZR x) <= height (fst b) (IZR x))%R.
  Proof.
    intros G A L I J. pose proof (ss_nth _ _ _ _ _ _ (proj1 G) L I J) as B. apply nth_error_In in I. apply nth_error_In in J.
    pose proof (A a I) as A1. pose proof (A b J) as A2. unfold left_at in A1, A2. destruct (proj2 G a I) as [Ga _]. destruct (proj2 G b J) as [Gb _].
    apply (lte_le E nod ordE (fst a) (fst b) (IZR x) Ga Gb B); split; apply IZR_le; lia.
  Qed.

  (* ---------- lower_bound ---------- *)
  Lemma lb_ok x y d : good d -> all_at x d -> coord_fits x -> coord_fits y -> exists i,
    lb x true (mk_seg (mk_pt x y) (mk_pt x (y + 1))) d = Ok i /\ (i <= length d)%nat /\
    (forall j a, nth_error d j = Some a -> (j < i)%nat -> (height (fst a) (IZR x) < IZR y)%R) /\
    (forall j a, nth_error d j = Some a -> (i <= j)%nat -> (IZR y <= height (fst a) (IZR x))%R).
  Proof.
    intros G A Fx Fy. induction d as [|a d IH].
    - exists O. split; [reflexivity|]. split; [cbn [length]; lia|]. split; intros [|j] b H; discriminate.
    - destruct (good_cons a d G) as [G1 G2]. destruct (proj2 G a (or_introl eq_refl)) as [Ga _].
      pose proof (A a (or_introl eq_refl)) as A1. unfold left_at in A1.
      pose proof (less_key (fst a) (mk_pt x y) (fitE _ Ga) Fx Fy A1) as K. cbn [px py] in K. cbn [lb]. rewrite K. cbn [obind]. clear K.
      assert (A2 : all_at x d) by (intros b B; apply A; right; exact B).
      destruct (rltb (height (fst a) (IZR x)) (IZR y)) eqn:R.
      + apply rltb_iff in R. destruct (IH G1 A2) as [i [-> [L [P Q]]]]. cbn [obind]. exists (S i). split; [reflexivity|]. split; [cbn [length]; lia|]. split.
        * intros [|j] b B J; cbn [nth_error] in B; [assert (a = b) as <- by congruence; exact R|]. apply (P j); [exact B|lia].
        * intros [|j] b B J; [lia|]. cbn [nth_error] in B. apply (Q j); [exact B|lia].
      + exists O. split; [reflexivity|]. split; [lia|]. split; [intros; lia|]. intros j b B _.
        assert (R' : (IZR y <= height (fst a) (IZR x))%R). { apply Rnot_lt_le. intros H. apply rltb_iff in H. congruence. }
        destruct j as [|j]; [cbn [nth_error] in B; assert (a = b) as <- by congruence; exact R'|].
        pose proof (good_le (a :: d) x 0 (S j) a b G A ltac:(lia) eq_refl B). lra.
  Qed.

  (* ---------- the properties below a point ---------- *)
  Lemma pt_int_of x y : coord_fits x -> coord_fits y -> pt_int (mk_pt x y).
  Proof. unfold coord_fits, pt_int, is_int, INT_MIN, INT_MAX. cbn [px py]. lia. Qed.
  Lemma go_down_ok x y d i : good d -> all_at x d -> coord_fits x -> coord_fits y -> (i < length d)%nat ->
    (forall j a, nth_error d j = Some a -> (i < j)%nat -> (IZR y <= height (fst a) (IZR x))%R) ->
    exists c a, go_down (mk_pt x y) d i = Ok c /\ nth_error d c = Some a /\
      (forall j b, nth_error d j = Some b -> (c < j)%nat -> (IZR y <= height (fst b) (IZR x))%R) /\
      ((height (fst a) (IZR x) < IZR y)%R \/ c = O /\ (IZR y <= height (fst a) (IZR x))%R).
  Proof.
    intros G A Fx Fy. induction i as [|i IH]; intros L H.
    - destruct (nth_lt d O L) as [a N]. exists O, a. cbn [go_down]. rewrite N. destruct (proj2 G a (nth_error_In _ _ N)) as [Ga [La _]].
      split; [destruct (sb_oab (mk_pt x y) (fst a) =? 1); reflexivity|]. split; [reflexivity|]. split; [exact H|].
      destruct (Rlt_dec (height (fst a) (IZR x)) (IZR y)) as [R|R]; [left; exact R|right; split; [reflexivity|lra]].
    - destruct (nth_lt d _ L) as [a N]. cbn [go_down]. rewrite N. destruct (proj2 G a (nth_error_In _ _ N)) as [Ga [La _]].
      pose proof (oab_1 (mk_pt x y) (fst a) (pt_int_of x y Fx Fy) (fitE _ Ga) La) as O. cbn [px py] in O.
      destruct (Z.eqb_spec (sb_oab (mk_pt x y) (fst a)) 1) as [Q|Q].
      + exists (S i), a. split; [reflexivity|]. split; [exact N|]. split; [exact H|]. left. apply O, Q.
      + apply IH; [lia|]. intros j b B J. destruct (Nat.eq_dec j (S i)) as [->|NE]; [|apply (H j); [exact B|lia]].
        assert (a = b) as <- by congruence. apply Rnot_lt_le. intros R. apply Q, O, R.
  Qed.
  Lemma go_up_ok x y d : forall i, coord_fits x -> coord_fits y -> (forall a, In a d -> In (fst a) E /\ px (s_low (fst a)) < px (s_high (fst a))) ->
    (i <= go_up (mk_pt x y) d i <= i + length d)%nat /\
    (go_up (mk_pt x y) d i = i + length d -> forall a, In a d -> height (fst a) (IZR x) = IZR y)%nat.
  Proof.
    induction d as [|a d IH]; intros i Fx Fy G; cbn [go_up length]; [split; [lia|intros _ a []]|].
    destruct (G a (or_introl eq_refl)) as [Ga La].
    pose proof (oab_0 (mk_pt x y) (fst a) (pt_int_of x y Fx Fy) (fitE _ Ga) La) as O. cbn [px py] in O.
    destruct (Z.eqb_spec (sb_oab (mk_pt x y) (fst a)) 0) as [Q|Q].
    - destruct (IH (S i) Fx Fy) as [H1 H2]; [intros b B; apply G; right; exact B|]. split; [lia|]. intros H b [<-|B]; [apply O, Q|]. apply H2; [lia|exact B].
    - split; [lia|]. intros H. lia.
  Qed.
  Lemma props_below_ok x y d cur : good d -> has d (left_at x) -> coord_fits x -> coord_fits y -> (cur <= length d)%nat ->
    (cur = length d -> forall a, In a d -> (height (fst a) (IZR x) < IZR y)%R) ->
    exists m c, props_below (mk_pt x y) d cur = Ok (m, c) /\ wf m /\ (forall k, get m k = depth_below_left l k (IZR x) (IZR y)) /\
      (c <= length d)%nat /\ (c = length d -> forall a, In a d -> (height (fst a) (IZR x) <= IZR y)%R).
  Proof.
    intros G Hd Fx Fy CL CA.
    assert (A : all_at x d) by (intros a B; apply Hd, in_map, B).
    assert (GG : forall a, In a d -> In (fst a) E /\ px (s_low (fst a)) < px (s_high (fst a))) by (intros a B; destruct (proj2 G a B) as [? [? _]]; auto).
    assert (MEM : forall e, In e l -> spans_l (fst e) (IZR x) = true -> exists a, In a d /\ fst a = fst e).
    { intros e He S. apply spans_lz in S. assert (In (fst e) (map fst d)) as M.
      { apply Hd. split; [apply in_map, He|]. split; [lia|]. exact S. }
      apply in_map_iff in M as [a [M1 M2]]. exists a. auto. }
    assert (Z0 : (forall a, In a d -> (height (fst a) (IZR x) < IZR y)%R) -> forall k, get [] k = depth_below_left l k (IZR x) (IZR y)).
    { intros H k. symmetry. apply (all_left l ord clo). intros e He S. destruct (MEM e He S) as [a [M1 M2]]. rewrite <- M2. apply H, M1. }
    (* the last step *)
    assert (FIN : forall m i, wf m -> (forall k, get m k = depth_below_left l k (IZR x) (IZR y)) -> (i <= length d)%nat ->
      (forall j a, nth_error d j = Some a -> (j < i)%nat -> (height (fst a) (IZR x) < IZR y)%R) ->
      exists m' c, Ok (m, go_up (mk_pt x y) (skipn i d) i) = Ok (m', c) /\ wf m' /\ (forall k, get m' k = depth_below_left l k (IZR x) (IZR y)) /\
        (c <= length d)%nat /\ (c = length d -> forall a, In a d -> (height (fst a) (IZR x) <= IZR y)%R)).
    { intros m i W K L P. exists m, (go_up (mk_pt x y) (skipn i d) i). split; [reflexivity|]. split; [exact W|]. split; [exact K|].
      destruct (go_up_ok x y (skipn i d) i Fx Fy) as [U1 U2].
      { intros a B. apply GG. rewrite <- (firstn_skipn i d). apply in_or_app. right. exact B. }
      rewrite skipn_length in U1, U2. split; [lia|]. intros Q a B. apply In_nth_error in B as [j B]. destruct (Nat.lt_ge_cases j i) as [J|J]; [left; apply (P j a B J)|].
      right. apply U2; [lia|]. apply nth_error_In with (n := (j - i)%nat). rewrite nth_skip. replace (i + (j - i))%nat with j by lia. exact B. }
    unfold props_below. destruct (Nat.eqb_spec cur (length d)) as [Q|Q].
    { cbn [obind]. cbv iota beta. apply FIN; [apply wf_nil|apply Z0, CA, Q|lia|]. intros j a B _. apply CA; [exact Q|]. eapply nth_error_In. exact B. }
    destruct (nth_lt d cur) as [e N]; [lia|]. rewrite N.
    (* the element to begin with *)
    assert (C1 : exists c1, (if negb (sb_oab (mk_pt x y) (fst e) =? 0) then try v <- vhe (mk_pt x y); lb (px (mk_pt x y)) true v d else Ok cur) = Ok c1 /\ (c1 <= length d)%nat /\
      (c1 = length d -> forall a, In a d -> (height (fst a) (IZR x) < IZR y)%R) /\
      (forall j a, nth_error d j = Some a -> (c1 < j)%nat -> (IZR y <= height (fst a) (IZR x))%R)).
    { destruct (GG e (nth_error_In _ _ N)) as [Ge Le]. pose proof (oab_0 (mk_pt x y) (fst e) (pt_int_of x y Fx Fy) (fitE _ Ge) Le) as O. cbn [px py] in O.
      destruct (Z.eqb_spec (sb_oab (mk_pt x y) (fst e)) 0) as [Q0|Q0]; cbn [negb].
      - exists cur. split; [reflexivity|]. split; [exact CL|]. split; [intros; contradiction|]. intros j a B J. apply O in Q0.
        pose proof (good_le d x cur j e a G A J N B). lra.
      - rewrite vhe_ok by exact Fy. cbn [obind px py]. destruct (lb_ok x y d G A Fx Fy) as [i [-> [L [P P']]]]. exists i. split; [reflexivity|]. split; [exact L|]. split.
        + intros -> a B. apply In_nth_error in B as [j B]. apply (P j a B). apply (lt_nth _ _ _ B).
        + intros j a B J. apply (P' j a B). lia. }
    destruct C1 as [c1 [-> [L1 [L2 L3]]]]. cbn [obind]. destruct (Nat.eqb_spec c1 (length d)) as [Q1|Q1].
    { cbn [obind]. cbv iota beta. apply FIN; [apply wf_nil|apply Z0, L2, Q1|lia|]. intros j a B _. apply L2; [exact Q1|]. eapply nth_error_In. exact B. }
    destruct (go_down_ok x y d c1 G A Fx Fy ltac:(lia) L3) as [c2 [a [-> [N2 [H2 H3]]]]]. cbn [obind]. rewrite N2. cbn [obind]. 
    destruct (GG a (nth_error_In _ _ N2)) as [Ga La]. pose proof (oab_1 (mk_pt x y) (fst a) (pt_int_of x y Fx Fy) (fitE _ Ga) La) as O. cbn [px py] in O.
    destruct (Z.eqb_spec (sb_oab (mk_pt x y) (fst a)) 1) as [Q2|Q2].
    - cbv iota beta. apply O in Q2. destruct (proj2 G a (nth_error_In _ _ N2)) as [_ [_ [W K]]]. pose proof (A a (nth_error_In _ _ N2)) as Aa. apply FIN.
      + exact W.
      + intros k. rewrite K. symmetry. apply (cum_left l nod ord clo); [exact Ga|exact Aa|exact Q2|]. intros f Hf Lf B.
        assert (In f (map fst d)) as M by (apply Hd; split; [exact Hf|split; [lia|exact Lf]]). apply in_map_iff in M as [b [<- M]]. apply In_nth_error in M as [j M].
        destruct (Nat.lt_trichotomy c2 j) as [J|[J|J]]; [apply (H2 j b M J)| |].
        * subst j. pose proof (eq_trans (eq_sym N2) M) as Q3. injection Q3 as <-. exfalso. apply (lte_irrefl _ B).
        * exfalso. pose proof (ss_nth _ _ _ _ _ _ (proj1 G) J M N2) as B'. apply (lte_asym E nod ordE _ _ Ga Hf B B').
      + apply lt_nth in N2. lia.
      + intros j b B J. destruct (Nat.eq_dec j c2) as [->|NE]; [assert (a = b) as <- by congruence; exact Q2|].
        pose proof (good_le d x j c2 b a G A ltac:(lia) B N2). lra.
    - destruct H3 as [H3|[-> H3]]; [exfalso; apply Q2, O, H3|]. cbv iota beta. apply FIN; [apply wf_nil| |lia|intros; lia].
      intros k. symmetry. apply (none_left l). intros f Hf SP. destruct (MEM f Hf SP) as [b [M1 M2]]. rewrite <- M2. apply In_nth_error in M1 as [j M1]. destruct j as [|j]; [assert (a = b) as <- by congruence; exact H3|].
      apply (H2 (S j) b M1). lia.
  Qed.

  (* ---------- removal ---------- *)
  Lemma seg_eqb_refl s : seg_eqb s s = true.
  Proof. apply seg_eqb_iff. reflexivity. Qed.
  Lemma erase_ok s d : NoDup (map fst d) -> In s (map fst d) -> map_erase s d = Ok (filter (fun a => negb (seg_eqb s (fst a))) d).
  Proof.
    induction d as [|a d IH]; intros N H; [destruct H|]. cbn [map] in N, H. inversion N as [|? ? N1 N2]; subst. cbn [map_erase filter].
    destruct (seg_eqb s (fst a)) eqn:Q; cbn [negb].
    - apply seg_eqb_iff in Q. subst s. f_equal. clear - N1. induction d as [|b d IH]; [reflexivity|]. cbn [filter map] in *.
      destruct (seg_eqb (fst a) (fst b)) eqn:Q; cbn [negb]; [exfalso; apply N1; left; symmetry; apply seg_eqb_iff, Q|]. f_equal. apply IH. intros H. apply N1. right. exact H.
    - destruct H as [H|H]; [subst s; rewrite seg_eqb_refl in Q; discriminate|]. rewrite IH by assumption. reflexivity.
  Qed.
  Definition without (rem : list seg) (a : elem) : bool := negb (existsb (fun s => seg_eqb s (fst a)) rem).
  Lemma without_iff rem a : without rem a = true <-> ~ In (fst a) rem.
  Proof.
    unfold without. rewrite negb_true_iff. split.
    - intros H K. assert (existsb (fun s => seg_eqb s (fst a)) rem = true); [|congruence]. apply existsb_exists. exists (fst a). split; [exact K|apply seg_eqb_refl].
    - intros H. destruct (existsb _ rem) eqn:Q; [|reflexivity]. exfalso. apply existsb_exists in Q as [s [Q1 Q2]]. apply seg_eqb_iff in Q2. subst s. contradiction.
  Qed.
  Lemma erase_all_ok rem : forall d, NoDup (map fst d) -> NoDup rem -> (forall s, In s rem -> In s (map fst d)) -> map_erase_all rem d = Ok (filter (without rem) d).
  Proof.
    induction rem as [|s rem IH]; intros d N R I; cbn [map_erase_all].
    - f_equal. induction d as [|a d IH]; [reflexivity|]. cbn [filter without existsb negb]. f_equal. apply IH; [inversion N; assumption|]. intros s [].
    - inversion R as [|? ? R1 R2]; subst. rewrite erase_ok; [|exact N|apply I; left; reflexivity]. cbn [obind]. rewrite IH.
      + f_equal. clear. induction d as [|a d IH]; [reflexivity|]. cbn [filter]. unfold without at 2. cbn [existsb]. destruct (seg_eqb s (fst a)) eqn:Q; cbn [negb orb]; [exact IH|].
        cbn [filter]. fold (without rem a). destruct (without rem a); [f_equal; exact IH|exact IH].
      + clear - N. induction d as [|a d IH]; [constructor|]. cbn [map] in N. inversion N as [|? ? N1 N2]; subst. cbn [filter]. destruct (negb (seg_eqb s (fst a))); [|apply IH, N2].
        cbn [map]. constructor; [|apply IH, N2]. intros H. apply N1. apply in_map_iff in H as [b [H1 H2]]. apply filter_In in H2. apply in_map_iff. exists b. split; [exact H1|apply H2].
      + exact R2.
      + intros t T. assert (M : In t (map fst d)) by (apply I; right; exact T). apply in_map_iff in M as [a [M1 M2]]. apply in_map_iff. exists a. split; [exact M1|]. apply filter_In. split; [exact M2|].
        rewrite negb_true_iff. destruct (seg_eqb s (fst a)) eqn:Q; [|reflexivity]. apply seg_eqb_iff in Q. congruence.
  Qed.

  (* the queue: the right ends of the edges *)
  Definition queue (q : list point) (d : list elem) : Prop := StronglySorted p_lt q /\ forall p, In p q <-> exists a, In a d /\ s_high (fst a) = p.
  Lemma ending_ok x y d : forall d0 i, good d0 -> all_at x d0 -> skipn i d0 = d ->
    (forall a, In a d -> (IZR y <= height (fst a) (IZR x))%R) ->
    forall e, In e (ending_at (mk_pt x y) d) <-> In e (map fst d) /\ s_high e = mk_pt x y.
  Proof.
    induction d as [|a d IH]; intros d0 i G A Sk H e; cbn [ending_at map]; [cbn [In]; tauto|].
    assert (NI : nth_error d0 i = Some a) by (rewrite <- (Nat.add_0_r i), <- nth_skip, Sk; reflexivity).
    assert (Sk' : skipn (S i) d0 = d).
    { clear - Sk. revert d0 Sk. induction i as [|i IH]; intros d0 Sk; [cbn [skipn] in Sk; subst d0; reflexivity|]. destruct d0 as [|b d0]; [discriminate|]. cbn [skipn] in Sk |- *. apply IH, Sk. }
    specialize (IH d0 (S i) G A Sk' ltac:(intros b B; apply H; right; exact B)).
    destruct (pt_eqb (s_high (fst a)) (mk_pt x y)) eqn:Q.
    - apply pt_eqb_iff in Q. cbn [In]. rewrite IH. split; [intros [<-|[B C]]; auto|]. intros [[B|B] C]; auto.
    - cbn [In]. split; [intros []|]. intros [[B|B] C]; [subst e; rewrite (proj2 (pt_eqb_iff _ _) C) in Q; discriminate|].
      assert (Q' : s_high (fst a) <> mk_pt x y) by (intros K; apply pt_eqb_iff in K; congruence). apply Q'. clear Q Q'.
      apply in_map_iff in B as [b [B1 B2]]. apply In_nth_error in B2 as [j B2]. rewrite <- Sk', nth_skip in B2.
      pose proof (good_le d0 x i (S i + j) a b G A ltac:(lia) NI B2) as LE.
      pose proof (H a (or_introl eq_refl)) as GE. rewrite <- B1 in C. pose proof (nth_error_In _ _ NI) as Ia. pose proof (nth_error_In _ _ B2) as Ib.
      destruct (proj2 G a Ia) as [Ea [La _]]. destruct (proj2 G b Ib) as [Eb [Lb _]]. pose proof (height_high (fst b) Lb) as HB. rewrite C in HB. cbn [px py] in HB.
      assert (HA : height (fst a) (IZR x) = IZR y) by lra. pose proof (A a Ia) as Aa. unfold left_at in Aa.
      destruct (Z.eq_dec x (px (s_high (fst a)))) as [X|X].
      + pose proof (height_high (fst a) La) as HH. rewrite <- X, HA in HH. apply eq_IZR in HH. apply eq_pt_iff. unfold eq_pt. cbn [px py]. rewrite <- X, HH, !Z.eqb_refl. reflexivity.
      + assert (fst b = fst a) as <-; [|exact C]. apply (touch E nod ordE (fst a) (fst b) (IZR x) Ea Eb); [split; apply IZR_lt; lia|]. rewrite HA.
        pose proof (on_high (fst b)) as OH. rewrite C in OH. exact OH.
  Qed.

  Lemma ending_nodup p d : NoDup (map fst d) -> NoDup (ending_at p d).
  Proof.
    induction d as [|a d IH]; intros N; [constructor|]. cbn [map] in N. inversion N as [|? ? N1 N2]; subst. cbn [ending_at]. destruct (pt_eqb _ _); [|constructor]. constructor; [|apply IH, N2].
    intros H. apply N1. clear - H. induction d as [|b d IH]; [destruct H|]. cbn [ending_at] in H. destruct (pt_eqb _ _); [|destruct H]. cbn [map]. destruct H as [H|H]; [left; exact H|right; apply IH, H].
  Qed.
  Lemma in_fst_filter f d e : In e (map fst (filter f d)) <-> exists a : elem, In a d /\ fst a = e /\ f a = true.
  Proof. rewrite in_map_iff. split; intros [a H]; exists a; [destruct H as [H K]; apply filter_In in K; tauto|]. split; [tauto|]. apply filter_In. tauto. Qed.
  Lemma retire_ok c a : forall q prev rem d, good d -> (forall b, In b d -> px (s_low (fst b)) < a) ->
    StronglySorted p_lt q -> (forall p, In p q -> a <= px p) ->
    (forall p, In p q -> exists b, In b d /\ s_high (fst b) = p) ->
    NoDup rem -> (forall e, In e rem <-> In e (map fst d) /\ ~ In (s_high e) q) ->
    (forall e, In e rem -> px (s_high e) = prev /\ px (s_high e) <= c) ->
    exists q' d', retire q c prev rem d = Ok (q', d') /\ good d' /\ queue q' d' /\ (forall b, In b d' <-> In b d /\ c < px (s_high (fst b))).
  Proof.
    (* removing what is left *)
    assert (FIN : forall q rem d, good d -> StronglySorted p_lt q -> (forall p, In p q -> c < px p) -> (forall p, In p q -> exists b, In b d /\ s_high (fst b) = p) ->
      NoDup rem -> (forall e, In e rem <-> In e (map fst d) /\ ~ In (s_high e) q) -> (forall e, In e rem -> px (s_high e) <= c) ->
      exists q' d', (try d1 <- map_erase_all rem d; Ok (q, d1)) = Ok (q', d') /\ good d' /\ queue q' d' /\ (forall b, In b d' <-> In b d /\ c < px (s_high (fst b)))).
    { intros q rem d G SQ QC QD NR RD RC. rewrite erase_all_ok; [|apply good_nodup, G|exact NR|intros s H; apply RD, H]. cbn [obind]. exists q, (filter (without rem) d).
      split; [reflexivity|]. split; [apply good_filter, G|].
      assert (MEM : forall b, In b (filter (without rem) d) <-> In b d /\ In (s_high (fst b)) q).
      { intros b. rewrite filter_In, without_iff, RD. split; intros [B C]; (split; [exact B|]).
        - destruct (in_dec pt_dec (s_high (fst b)) q) as [I|I]; [exact I|]. exfalso. apply C. split; [apply in_map, B|exact I].
        - tauto. }
      split; [split; [exact SQ|]|].
      - intros p. split.
        + intros P. destruct (QD p P) as [b [B1 B2]]. exists b. split; [|exact B2]. apply MEM. split; [exact B1|]. rewrite B2. exact P.
        + intros [b [B1 B2]]. apply MEM in B1. rewrite <- B2. apply B1.
      - intros b. rewrite MEM. split; intros [B C]; (split; [exact B|]).
        + apply QC, C.
        + destruct (in_dec pt_dec (s_high (fst b)) q) as [I|I]; [exact I|]. exfalso. assert (In (fst b) rem) as R by (apply RD; split; [apply in_map, B|exact I]). apply RC in R. lia. }
    induction q as [|p q IH]; intros prev rem d G LA SQ QA QD NR RD RC; cbn [retire].
    { apply FIN; try assumption; [intros p []|]. intros e H. apply RC, H. }
    apply StronglySorted_inv in SQ as SQ'. destruct SQ' as [SQ1 SQ2]. rewrite Forall_forall in SQ2.
    destruct (Z.leb_spec (px p) c) as [PC|PC].
    2: { apply FIN; try assumption.
         - intros r [<-|R]; [exact PC|]. apply SQ2 in R. unfold p_lt in R. rewrite pt_less_lex in R. unfold lex_lt in R. lia.
         - intros e H. apply RC, H. }
    (* erasing at a new abscissa *)
    assert (D1 : exists rem1 d1, (if negb (px p =? prev) then try d1 <- map_erase_all rem d; Ok ([], d1) else Ok (rem, d)) = Ok (rem1, d1) /\ good d1 /\
      (forall b, In b d1 -> In b d) /\ (forall r, In r (p :: q) -> exists b, In b d1 /\ s_high (fst b) = r) /\ NoDup rem1 /\
      (forall e, In e rem1 <-> In e (map fst d1) /\ ~ In (s_high e) (p :: q)) /\ (forall e, In e rem1 -> px (s_high e) = px p) /\
      (forall b, In b d -> In b d1 \/ px (s_high (fst b)) <= c)).
    { destruct (Z.eqb_spec (px p) prev) as [Q|Q]; cbn [negb].
      - exists rem, d. split; [reflexivity|]. split; [exact G|]. split; [auto|]. split; [exact QD|]. split; [exact NR|]. split; [exact RD|]. split; [|auto]. intros e H. rewrite Q. apply RC, H.
      - rewrite erase_all_ok; [|apply good_nodup, G|exact NR|intros s H; apply RD, H]. cbn [obind]. exists [], (filter (without rem) d). split; [reflexivity|]. split; [apply good_filter, G|].
        split; [intros b B; apply filter_In in B; apply B|].
        split; [|split; [constructor|split; [|split; [intros e []|]]]].
        + intros r R. destruct (QD r R) as [b [B1 B2]]. exists b. split; [|exact B2]. apply filter_In. split; [exact B1|]. apply without_iff. intros K. apply RD in K. rewrite B2 in K. tauto.
        + intros e. split; [intros []|]. intros [B C]. exfalso. apply in_fst_filter in B as [b [B1 [<- B2]]]. apply without_iff in B2. apply B2, RD. split; [apply in_map, B1|exact C].
        + intros b B. destruct (without rem b) eqn:W; [left; apply filter_In; auto|]. right. assert (~ without rem b = true) as W' by congruence. rewrite without_iff in W'.
          destruct (in_dec pt_dec (s_high (fst b)) (p :: q)) as [I|I].
          * exfalso. apply W'. intros K. apply RD in K. tauto.
          * apply RC. apply RD. split; [apply in_map, B|exact I]. }
    destruct D1 as [rem1 [d1 [-> [G1 [S1 [QD1 [NR1 [RD1 [RC1 K1]]]]]]]]]. cbn [obind]. cbv iota beta.
    destruct (QD1 p (or_introl eq_refl)) as [b0 [B0 B0']]. destruct (proj2 G1 b0 B0) as [Eb0 _]. pose proof (fitE _ Eb0) as F0. unfold fits in F0. rewrite B0' in F0.
    rewrite vhe_ok by apply F0. cbn [obind].
    assert (AT : all_at (px p) d1).
    { intros b B. split; [pose proof (LA b (S1 b B)); pose proof (QA p (or_introl eq_refl)); lia|].
      destruct (in_dec pt_dec (s_high (fst b)) (p :: q)) as [[<-|I]|I]; [lia| |].
      - apply SQ2 in I. unfold p_lt in I. rewrite pt_less_lex in I. unfold lex_lt in I. lia.
      - assert (In (fst b) rem1) as R by (apply RD1; split; [apply in_map, B|exact I]). apply RC1 in R. lia. }
    destruct p as [x y]. cbn [px py] in *.
    destruct (lb_ok x y d1 G1 AT ltac:(apply F0) ltac:(apply F0)) as [i [-> [L [P P']]]]. cbn [obind].
    assert (GE : forall b, In b (skipn i d1) -> (IZR y <= height (fst b) (IZR x))%R).
    { intros b B. apply In_nth_error in B as [j B]. rewrite nth_skip in B. apply (P' _ _ B). lia. }
    pose proof (ending_ok x y (skipn i d1) d1 i G1 AT eq_refl GE) as EN.
    assert (EN' : forall e, In e (ending_at (mk_pt x y) (skipn i d1)) <-> In e (map fst d1) /\ s_high e = mk_pt x y).
    { intros e. rewrite EN. split; intros [B C]; (split; [|exact C]).
      - rewrite <- (firstn_skipn i d1), map_app. apply in_or_app. right. exact B.
      - apply in_map_iff in B as [b [<- B]]. apply In_nth_error in B as [j B]. apply in_map_iff. exists b. split; [reflexivity|].
        destruct (Nat.lt_ge_cases j i) as [J|J].
        + exfalso. pose proof (P j b B J) as LT. destruct (proj2 G1 b (nth_error_In _ _ B)) as [_ [Lb _]]. pose proof (height_high (fst b) Lb) as HH. rewrite C in HH. cbn [px py] in HH. lra.
        + apply nth_error_In with (n := (j - i)%nat). rewrite nth_skip. replace (i + (j - i))%nat with j by lia. exact B. }
    assert (NP : ~ In (mk_pt x y) q). { intros I. apply SQ2 in I. unfold p_lt in I. rewrite pt_less_lex in I. unfold lex_lt in I. lia. }
    destruct (IH x (rem1 ++ ending_at (mk_pt x y) (skipn i d1)) d1) as [q' [d' [R1 [R2 [R3 R4]]]]].
    - exact G1.
    - intros b B. apply LA, S1, B.
    - exact SQ1.
    - intros r R. apply QA. right. exact R.
    - intros r R. apply QD1. right. exact R.
    - clear - NR1 EN' RD1 G1. assert (NE : NoDup (ending_at (mk_pt x y) (skipn i d1))).
      { apply ending_nodup. pose proof (good_nodup d1 G1) as N. rewrite <- (firstn_skipn i d1), map_app in N. apply nodup_r in N. exact N. }
      assert (DJ : forall e, In e rem1 -> ~ In e (ending_at (mk_pt x y) (skipn i d1))).
      { intros e H K. apply EN' in K. apply RD1 in H. destruct K as [_ K]. destruct H as [_ H]. apply H. left. symmetry. exact K. }
      clear - NR1 NE DJ. induction rem1 as [|e rem1 IH]; [exact NE|]. inversion NR1 as [|? ? N1 N2]; subst. cbn [app]. constructor; [|apply IH; [exact N2|]].
      + intros H. apply in_app_or in H as [H|H]; [contradiction|]. apply (DJ e); [left; reflexivity|exact H].
      + intros f F. apply DJ. right. exact F.
    - intros e. rewrite in_app_iff, RD1, EN'. cbn [In]. split.
      + intros [[B C]|[B C]]; (split; [exact B|]); [tauto|]. rewrite C. exact NP.
      + intros [B C]. destruct (pt_dec (s_high e) (mk_pt x y)) as [Q|Q]; [right; auto|left]. split; [exact B|]. intros [K|K]; [symmetry in K|]; contradiction.
    - intros e H. apply in_app_or in H as [H|H].
      + pose proof (RC1 e H) as RC1'. lia.
      + apply EN' in H as [_ H]. rewrite H. cbn [px]. lia.
    - exists q', d'. split; [exact R1|]. split; [exact R2|]. split; [exact R3|]. intros b. rewrite R4. split; intros [B C]; (split; [|exact C]); [apply S1, B|].
      destruct (K1 b B) as [B'|B']; [exact B'|lia].
  Qed.
  Lemma remove_retired_ok c a q d : good d -> (forall b, In b d -> px (s_low (fst b)) < a <= px (s_high (fst b))) -> queue q d ->
    exists q' d', remove_retired c q d = Ok (q', d') /\ good d' /\ queue q' d' /\ (forall b, In b d' <-> In b d /\ c < px (s_high (fst b))).
  Proof.
    intros G LA [SQ QD]. apply (retire_ok c a).
    - exact G.
    - intros b B. apply LA, B.
    - exact SQ.
    - intros p P. apply QD in P as [b [B <-]]. apply LA, B.
    - intros p P. apply QD, P.
    - constructor.
    - intros e. split; [intros []|]. intros [B C]. apply C, QD. apply in_map_iff in B as [b [<- B]]. exists b. auto.
    - intros e [].
  Qed.

  (* ---------- insertion ---------- *)
  Definition right_at (x : Z) (e : seg) : Prop := px (s_low e) <= x < px (s_high e).
  Definition fine (a : elem) : Prop := In (fst a) E /\ px (s_low (fst a)) < px (s_high (fst a)) /\ wf (snd a) /\ forall k, get (snd a) k = cum l k (fst a).
  Lemma insert_ok x a d : good d -> (forall b, In b d -> right_at x (fst b)) -> fine a -> px (s_low (fst a)) = x ->
    exists d', map_insert x false a d = Ok d' /\ good d' /\ (forall e, In e (map fst d') <-> e = fst a \/ In e (map fst d)) /\ (forall b, In b d' -> b = a \/ In b d).
  Proof.
    intros G R A X. assert (Ra : right_at x (fst a)) by (destruct A as [_ [A _]]; unfold right_at; lia).
    assert (IN : forall b : elem, right_at x (fst b) -> inr (fst b) (IZR x + / 2)).
    { intros b [B1 B2]. split; [apply izr_half_lt|apply izr_half_gt]; assumption. }
    induction d as [|b d IH].
    { exists [a]. split; [reflexivity|]. split; [split; [constructor; constructor|]|].
      - intros b [<-|[]]. exact A.
      - split; [intros e; cbn [map In]; intuition|]. intros b [<-|[]]. auto. }
    destruct (good_cons b d G) as [G1 G2]. destruct (proj2 G b (or_introl eq_refl)) as [Eb [Lb _]]. pose proof (R b (or_introl eq_refl)) as Rb.
    destruct (less_right E nod ordE fitE (fst b) (fst a) x Eb (proj1 A) Rb Ra (or_intror X)) as [c [C1 C2]]. cbn [map_insert]. rewrite C1. cbn [obind]. clear C1.
    destruct c.
    - destruct IH as [d' [-> [G' [M1 M2]]]]; [exact G1|intros f F; apply R; right; exact F|]. cbn [obind]. exists (b :: d'). split; [reflexivity|]. split; [split|split].
      + constructor; [apply G'|]. apply Forall_forall. intros f F. unfold below. destruct (M2 f F) as [->|F']; [apply C2; reflexivity|apply G2, F'].
      + intros f [<-|F]; [apply G; left; reflexivity|apply G', F].
      + intros e. cbn [map In]. rewrite M1. tauto.
      + intros f [<-|F]; [right; left; reflexivity|]. destruct (M2 f F) as [->|F']; [left; reflexivity|right; right; exact F'].
    - destruct (less_right E nod ordE fitE (fst a) (fst b) x (proj1 A) Eb Ra Rb (or_introl X)) as [c [C3 C4]]. rewrite C3. cbn [obind]. clear C3.
      destruct (lte_total E nod ordE (fst a) (fst b) _ (proj1 A) Eb (IN a Ra) (IN b Rb)) as [Q|[Q|Q]].
      + destruct c; [exfalso; assert (lte (fst a) (fst b)) as K by (apply C4; reflexivity); rewrite Q in K; apply (lte_irrefl _ K)|].
        exists (b :: d). split; [reflexivity|]. split; [exact G|]. split; [|auto]. intros e. cbn [map In]. split; [auto|]. intros [->|K]; [left; exact Q|exact K].
      + assert (c = true) as -> by (apply C4, Q). exists (a :: b :: d). split; [reflexivity|]. split; [split|split].
        * constructor; [apply G|]. constructor; [exact Q|]. apply Forall_forall. intros f F. pose proof (G2 f F) as BF. unfold below in BF |- *.
          destruct (proj2 G f (or_intror F)) as [Ef _]. apply (lte_trans E nod ordE (fst a) (fst b) (fst f) (IZR x + / 2)); try assumption; [apply A|apply IN, Ra|apply IN, Rb|apply IN, R; right; exact F].
        * intros f [<-|F]; [exact A|apply G, F].
        * intros e. cbn [map In]. intuition.
        * intros f [<-|F]; auto.
      + exfalso. apply C2 in Q. discriminate.
  Qed.
  Lemma insert_new_ok x set : forall q d, good d -> (forall b, In b d -> right_at x (fst b)) -> queue q d -> (forall a, In a set -> fine a /\ px (s_low (fst a)) = x) ->
    exists q' d', insert_new x set q d = Ok (q', d') /\ good d' /\ queue q' d' /\ (forall e, In e (map fst d') <-> In e (map fst set) \/ In e (map fst d)).
  Proof.
    induction set as [|a set IH]; intros q d G R Q H; cbn [insert_new].
    { exists q, d. split; [reflexivity|]. split; [exact G|]. split; [exact Q|]. intros e. cbn [map In]. tauto. }
    destruct (H a (or_introl eq_refl)) as [A X]. destruct (insert_ok x a d G R A X) as [d1 [-> [G1 [M1 M2]]]]. cbn [obind].
    destruct (IH (set_insert (s_high (fst a)) q) d1) as [q' [d' [E1 [E2 [E3 E4]]]]].
    - exact G1.
    - intros b B. destruct (M2 b B) as [->|B']; [destruct A as [_ [A _]]; unfold right_at; lia|apply R, B'].
    - split; [apply set_insert_sorted, Q|]. intros p. rewrite set_insert_in, (proj2 Q p). split.
      + intros [->|[b [B1 B2]]].
        * assert (In (fst a) (map fst d1)) as K by (apply M1; left; reflexivity). apply in_map_iff in K as [b [K1 K2]]. exists b. rewrite K1. auto.
        * assert (In (fst b) (map fst d1)) as K by (apply M1; right; apply in_map, B1). apply in_map_iff in K as [c [K1 K2]]. exists c. rewrite K1. auto.
      + intros [b [B1 B2]]. destruct (M2 b B1) as [->|B']; [left; symmetry; exact B2|right; exists b; auto].
    - intros b B. apply H. right. exact B.
    - exists q', d'. split; [exact E1|]. split; [exact E2|]. split; [exact E3|]. intros e. rewrite E4, M1. cbn [map In]. intuition.
  Qed.
End line.
