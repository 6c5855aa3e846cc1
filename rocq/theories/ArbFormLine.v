(* The scan line of the polygon formation: lookups, insertion and removal of edges. *)
From Verif Require Import Base Units Outcome Scan90Spec Poly90Spec Poly90Model Poly90Proofs GeoSpec IvlModel RectModel SegModel PolySpec PolyModel PolyEdge ScanBaseModel ScanBaseOab SnapModel SnapSpec SnapProofs SnapLoops ArbSpec ArbOrder ArbSums ArbModel ArbMaps ArbLess ArbLine ArbColumn ArbBool ArbSetModel ArbSetProofs ArbSetCor ArbFormSpec ArbFormModel ArbFormChains ArbFormPoint ArbFormGeo.
From Coq Require Import Reals Lra Sorting.Sorted Sorting.Permutation.

Section line.
  Variable E : list seg.
  Hypothesis nod : noded E.
  Hypothesis ordE : forall s, In s E -> ordered s.
  Hypothesis fitE : forall s, In s E -> fits s.

  Definition fbelow (a b : felem) : Prop := lte (fst a) (fst b).
  Definition fine1 (a : felem) : Prop := In (fst a) E /\ px (s_low (fst a)) < px (s_high (fst a)).
  Definition fgood (d : list felem) : Prop := StronglySorted fbelow d /\ forall a, In a d -> fine1 a.
  Definition fall (x : Z) (d : list felem) : Prop := forall a, In a d -> left_at x (fst a).
  Lemma fgood_nil : fgood [].
  Proof. split; [constructor|]. intros a []. Qed.
  Lemma fgood_cons a d : fgood (a :: d) -> fgood d /\ forall b, In b d -> fbelow a b.
  Proof.
    intros [S G]. apply StronglySorted_inv in S as [S F]. split; [split; [exact S|]|].
    - intros b B. apply G. right. exact B.
    - apply Forall_forall, F.
  Qed.
  Lemma fgood_nodup d : fgood d -> NoDup (map fst d).
  Proof.
    induction d as [|a d IH]; intros G; [constructor|]. destruct (fgood_cons a d G) as [G1 G2]. cbn [map]. constructor; [|apply IH, G1].
    intros H. apply in_map_iff in H as [b [Q B]]. apply G2 in B. unfold fbelow in B. rewrite Q in B. apply (lte_irrefl _ B).
  Qed.
  Lemma fgood_filter f d : fgood d -> fgood (filter f d).
  Proof. intros [S G]. split; [apply ss_filter, S|]. intros a A. apply filter_In in A. apply G, A. Qed.
  Lemma fgood_le x a d b : fgood (a :: d) -> fall x (a :: d) -> In b d -> (height (fst a) (IZR x) <= height (fst b) (IZR x))%R.
  Proof.
    intros G A B. destruct (fgood_cons a d G) as [_ G2]. pose proof (A a (or_introl eq_refl)) as A1. pose proof (A b (or_intror B)) as A2. unfold left_at in A1, A2.
    destruct (proj2 G a (or_introl eq_refl)) as [Ga _]. destruct (proj2 G b (or_intror B)) as [Gb _]. apply (lte_le E nod ordE (fst a) (fst b) (IZR x) Ga Gb (G2 b B)); split; apply IZR_le; lia.
  Qed.

  Section at_vertex.
    Variables x y : Z.
    Notation p := (mk_pt x y).
    Hypothesis Fx : coord_fits x.
    Hypothesis Fy : coord_fits y.
    Hypothesis ends : forall e, In e E -> px (s_low e) < x <= px (s_high e) -> height e (IZR x) = IZR y -> s_high e = p.
    Lemma coming_split d : fgood d -> fall x d -> (forall a, In a d -> (IZR y <= height (fst a) (IZR x))%R) ->
      exists hi, d = coming p d ++ hi /\ (forall a, In a (coming p d) -> s_high (fst a) = p) /\ (forall a, In a hi -> (IZR y < height (fst a) (IZR x))%R).
    Proof.
      induction d as [|a d IH]; intros G A H; [exists []; split; [reflexivity|]; split; intros a []|].
      destruct (fgood_cons a d G) as [G1 G2]. destruct (proj2 G a (or_introl eq_refl)) as [Ga La]. pose proof (A a (or_introl eq_refl)) as A1. unfold left_at in A1. pose proof (H a (or_introl eq_refl)) as H1.
      assert (N : pt_eqb (s_low (fst a)) p = false) by (apply not_true_iff_false; rewrite pteq_iff; intros K; rewrite K in A1; cbn [px] in A1; lia).
      cbn [coming]. rewrite N. cbn [orb]. destruct (pt_eqb (s_high (fst a)) p) eqn:Q.
      - apply pteq_iff in Q. destruct IH as [hi [I1 [I2 I3]]]; [exact G1|intros b B; apply A; right; exact B|intros b B; apply H; right; exact B|]. exists hi. split; [cbn [app]; f_equal; exact I1|]. split; [|exact I3]. intros b [<-|B]; [exact Q|apply I2, B].
      - exists (a :: d). split; [reflexivity|]. split; [intros b []|]. assert (HA : (IZR y < height (fst a) (IZR x))%R).
        { destruct (Req_dec (height (fst a) (IZR x)) (IZR y)) as [K|K]; [|lra]. exfalso. apply (ends _ Ga A1), pteq_iff in K. congruence. }
        intros b [<-|B]; [exact HA|]. pose proof (fgood_le x a d b G A B). lra.
    Qed.
    Lemma line_split d : fgood d -> fall x d -> exists lo here hi, d = lo ++ here ++ hi /\ f_lb x (mk_seg p (mk_pt x (y + 1))) d = Ok (length lo) /\ coming p (skipn (length lo) d) = here /\
      (forall a, In a lo -> (height (fst a) (IZR x) < IZR y)%R) /\ (forall a, In a here -> s_high (fst a) = p) /\ (forall a, In a hi -> (IZR y < height (fst a) (IZR x))%R).
    Proof.
      induction d as [|a d IH]; intros G A; [exists [], [], []; repeat split; intros a []|].
      destruct (fgood_cons a d G) as [G1 G2]. destruct (proj2 G a (or_introl eq_refl)) as [Ga La]. pose proof (A a (or_introl eq_refl)) as A1. unfold left_at in A1.
      pose proof (less_key (fst a) p (fitE _ Ga) Fx Fy A1) as K. cbn [px py] in K. cbn [f_lb]. rewrite K. cbn [obind]. clear K.
      destruct (rltb (height (fst a) (IZR x)) (IZR y)) eqn:R.
      - apply rltb_iff in R. destruct IH as [lo [here [hi [I1 [I2 [I3 [I4 [I5 I6]]]]]]]]; [exact G1|intros b B; apply A; right; exact B|]. rewrite I2. cbn [obind].
        exists (a :: lo), here, hi. split; [cbn [app]; f_equal; exact I1|]. split; [reflexivity|]. split; [exact I3|]. split; [intros b [<-|B]; [exact R|apply I4, B]|]. auto.
      - assert (R' : (IZR y <= height (fst a) (IZR x))%R) by (apply Rnot_lt_le; intros H; apply rltb_iff in H; congruence).
        destruct (coming_split (a :: d) G A) as [hi [C1 [C2 C3]]]; [intros b [<-|B]; [exact R'|pose proof (fgood_le x a d b G A B); lra]|].
        exists [], (coming p (a :: d)), hi. split; [exact C1|]. split; [reflexivity|]. split; [reflexivity|]. split; [intros b []|]. auto.
    Qed.
  End at_vertex.

  (* ---------- removal ---------- *)
  Lemma f_erase_ok s d : NoDup (map fst d) -> In s (map fst d) -> exists d', f_erase s d = Ok d' /\ (forall a, In a d' <-> In a d /\ fst a <> s) /\ (fgood d -> fgood d').
  Proof.
    induction d as [|a d IH]; intros N H; [destruct H|]. cbn [map] in N, H. inversion N as [|? ? N1 N2]; subst. cbn [f_erase].
    destruct (seg_eqb s (fst a)) eqn:Q.
    - apply seg_eqb_iff in Q. subst s. exists d. split; [reflexivity|]. split.
      + intros b. cbn [In]. split; [intros B; split; [right; exact B|intros K; apply N1; rewrite <- K; apply in_map, B]|]. intros [[<-|B] K]; [contradiction K; reflexivity|exact B].
      + intros G. apply (fgood_cons _ _ G).
    - assert (NQ : s <> fst a) by (intros K; apply seg_eqb_iff in K; congruence). destruct H as [H|H]; [congruence|]. destruct (IH N2 H) as [d' [-> [M G]]]. cbn [obind]. exists (a :: d'). split; [reflexivity|]. split.
      + intros b. cbn [In]. rewrite M. split; [intros [<-|[B C]]; [split; [left; reflexivity|congruence]|auto]|]. intros [[B|B] C]; auto.
      + intros GG. destruct (fgood_cons _ _ GG) as [G1 G2]. destruct (G G1) as [S1 S2]. split.
        * constructor; [exact S1|]. apply Forall_forall. intros b B. apply G2, M, B.
        * intros b [<-|B]; [apply GG; left; reflexivity|apply S2, B].
  Qed.
  Lemma f_erases_ok rem : forall d, fgood d -> NoDup rem -> (forall s, In s rem -> In s (map fst d)) -> exists d', f_erases rem d = Ok d' /\ fgood d' /\ (forall a, In a d' <-> In a d /\ ~ In (fst a) rem).
  Proof.
    induction rem as [|s rem IH]; intros d G N H; cbn [f_erases]; [exists d; split; [reflexivity|]; split; [exact G|]; intros a; cbn [In]; tauto|].
    inversion N as [|? ? N1 N2]; subst. destruct (f_erase_ok s d (fgood_nodup d G) (H s (or_introl eq_refl))) as [d1 [-> [M1 G1]]]. cbn [obind].
    destruct (IH d1 (G1 G) N2) as [d2 [-> [G2 M2]]].
    - intros t T. assert (K : In t (map fst d)) by (apply H; right; exact T). apply in_map_iff in K as [a [<- K]]. apply in_map, M1. split; [exact K|]. intros Q. apply N1. rewrite <- Q. exact T.
    - exists d2. split; [reflexivity|]. split; [exact G2|]. intros a. rewrite M2, M1. cbn [In]. split; [intros [[A B] C]; split; [exact A|]; intros [K|K]; [congruence|contradiction]|]. intros [A B]. split; [split; [exact A|]|]; intros K; apply B; auto.
  Qed.
  (* ---------- insertion ---------- *)
  Lemma f_insert_ok x a d : fgood d -> (forall b, In b d -> px (s_low (fst b)) <= x < px (s_high (fst b))) -> fine1 a -> px (s_low (fst a)) = x -> ~ In (fst a) (map fst d) ->
    exists d', f_insert x a d = Ok d' /\ fgood d' /\ Permutation (a :: d) d'.
  Proof.
    intros G R A X NI. assert (Ra : px (s_low (fst a)) <= x < px (s_high (fst a))) by (destruct A as [_ A]; lia).
    assert (IN : forall b : felem, px (s_low (fst b)) <= x < px (s_high (fst b)) -> inr (fst b) (IZR x + / 2)) by (intros b [B1 B2]; split; [apply izr_half_lt|apply izr_half_gt]; assumption).
    induction d as [|b d IH].
    { exists [a]. split; [reflexivity|]. split; [split; [constructor; constructor|]|apply Permutation_refl]. intros b [<-|[]]. exact A. }
    destruct (fgood_cons b d G) as [G1 G2]. destruct (proj2 G b (or_introl eq_refl)) as [Eb Lb]. pose proof (R b (or_introl eq_refl)) as Rb.
    destruct (less_right E nod ordE fitE (fst b) (fst a) x Eb (proj1 A) Rb Ra (or_intror X)) as [c [C1 C2]]. cbn [f_insert]. rewrite C1. cbn [obind]. clear C1.
    cbn [map In] in NI. destruct c.
    - destruct IH as [d' [-> [G' M]]]; [exact G1|intros f F; apply R; right; exact F|intros K; apply NI; right; exact K|]. cbn [obind]. exists (b :: d'). split; [reflexivity|]. split; [split|].
      + constructor; [apply G'|]. apply Forall_forall. intros f F. eapply Permutation_in in F; [|apply Permutation_sym, M]. destruct F as [<-|F]; [apply C2; reflexivity|apply G2, F].
      + intros f [<-|F]; [apply G; left; reflexivity|apply G', F].
      + eapply Permutation_trans; [apply perm_swap|apply perm_skip, M].
    - destruct (less_right E nod ordE fitE (fst a) (fst b) x (proj1 A) Eb Ra Rb (or_introl X)) as [c [C3 C4]]. rewrite C3. cbn [obind]. clear C3.
      destruct (lte_total E nod ordE (fst a) (fst b) _ (proj1 A) Eb (IN a Ra) (IN b Rb)) as [Q|[Q|Q]].
      + exfalso. apply NI. left. exact Q.
      + assert (c = true) as -> by (apply C4, Q). exists (a :: b :: d). split; [reflexivity|]. split; [split|apply Permutation_refl].
        * constructor; [apply G|]. constructor; [exact Q|]. apply Forall_forall. intros f F. pose proof (G2 f F) as BF. unfold fbelow in BF |- *.
          destruct (proj2 G f (or_intror F)) as [Ef _]. apply (lte_trans E nod ordE (fst a) (fst b) (fst f) (IZR x + / 2)); try assumption; [apply A|apply IN, Ra|apply IN, Rb|apply IN, R; right; exact F].
        * intros f [<-|F]; [exact A|apply G, F].
      + apply C2 in Q. discriminate.
  Qed.
  Lemma f_inserts_ok x es : forall d, fgood d -> (forall b, In b d -> px (s_low (fst b)) <= x < px (s_high (fst b))) -> (forall a, In a es -> fine1 a /\ px (s_low (fst a)) = x) -> NoDup (map fst (es ++ d)) ->
    exists d', f_inserts x es d = Ok d' /\ fgood d' /\ Permutation (es ++ d) d'.
  Proof.
    induction es as [|a es IH]; intros d G R H N; cbn [f_inserts app]; [exists d; split; [reflexivity|]; split; [exact G|apply Permutation_refl]|].
    destruct (H a (or_introl eq_refl)) as [A X]. cbn [map app] in N. inversion N as [|? ? N1 N2]; subst.
    destruct (f_insert_ok (px (s_low (fst a))) a d G R A eq_refl) as [d1 [-> [G1 M1]]]; [intros K; apply N1; rewrite map_app; apply in_or_app; right; exact K|]. cbn [obind].
    destruct (IH d1) as [d2 [-> [G2 M2]]].
    - exact G1.
    - intros b B. eapply Permutation_in in B; [|apply Permutation_sym, M1]. destruct B as [<-|B]; [destruct A as [_ A]; lia|apply R, B].
    - intros b B. apply H. right. exact B.
    - eapply Permutation_NoDup; [|exact N]. change (fst a :: map fst (es ++ d)) with (map fst (a :: es ++ d)). apply Permutation_map. eapply Permutation_trans; [apply Permutation_middle|]. apply Permutation_app_head, M1.
    - exists d2. split; [reflexivity|]. split; [exact G2|]. eapply Permutation_trans; [apply Permutation_middle|]. eapply Permutation_trans; [apply Permutation_app_head, M1|exact M2].
  Qed.
End line.
