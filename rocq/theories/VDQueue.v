(* The queue of site events as the builder makes it, and that it meets what the
   sweep needs. *)
From Coq Require Import Sorting.Permutation Sorting.Sorted.
From Verif Require Import Base Units Outcome Set90Spec Poly90Model VorSpec VorModel GeoSpec VorProofs P_Vor VDModel VDSpec VDMem VDInsert VDBeach VDSweep.
Local Open Scope nat_scope.

(* ---------- model ---------- *)
(* the calls of insert_point and insert_segment *)
Inductive input : Type := In_point (p : point) | In_segment (p q : point).
(* insert_point and insert_segment, voronoi_builder.hpp:54-96; index is index_ *)
Definition insert_input (index : nat) (g : input) : list sev :=
  match g with
  | In_point p => [mk_sev p p 0 index 0 false]
  | In_segment p q =>
      [mk_sev p p 0 index 1 false; mk_sev q q 0 index 2 false;
       if point_before p q then mk_sev p q 0 index 8 false else mk_sev q p 0 index 9 false]
  end.
Fixpoint insert_inputs (index : nat) (l : list input) : list sev :=
  match l with [] => [] | g :: l' => insert_input index g ++ insert_inputs (S index) l' end.
Definition site_of (s : sev) : site := mk_site (e_p0 s) (e_p1 s).
(* init_sites_queue 170-186: std::unique and the numbers *)
Fixpoint sev_unique_from (a : sev) (l : list sev) : list sev :=
  match l with
  | [] => [a]
  | b :: l' => if site_eqb (site_of a) (site_of b) then sev_unique_from a l' else a :: sev_unique_from b l'
  end.
Definition sev_unique (l : list sev) : list sev := match l with [] => [] | a :: l' => sev_unique_from a l' end.
Definition set_sorted (i : nat) (s : sev) : sev := mk_sev (e_p0 s) (e_p1 s) i (e_initial s) (e_cat s) (e_inv s).
Fixpoint number_from (i : nat) (l : list sev) : list sev :=
  match l with [] => [] | s :: l' => set_sorted i s :: number_from (S i) l' end.
Definition site_queue (sorted : list sev) : list sev := number_from 0 (sev_unique sorted).

(* ---------- specification ---------- *)
Definition input_int (g : input) : Prop := match g with In_point p => pt_int p | In_segment p q => pt_int p /\ pt_int q end.
(* the site (a, b) with source index i and category cat belongs to the input *)
Definition names (inputs : list input) (i : nat) (cat : Z) (a b : point) : Prop :=
  match nth_error inputs i with
  | Some (In_point p) => cat = 0%Z /\ a = p /\ b = p
  | Some (In_segment p q) => cat = 1%Z /\ a = p /\ b = p \/ cat = 2%Z /\ a = q /\ b = q \/ cat = 8%Z /\ a = p /\ b = q /\ lex_before p q \/ cat = 9%Z /\ a = q /\ b = p /\ ~ lex_before p q
  | None => False
  end.
(* the places of the sites of an input geometry: the points, the open segment *)
Definition has_site (g : input) (s : site) : Prop :=
  match g with
  | In_point p => s = mk_site p p
  | In_segment p q => s = mk_site p p \/ s = mk_site q q \/ s = mk_site p q /\ lex_before p q \/ s = mk_site q p /\ ~ lex_before p q
  end.
(* what std::sort may make of the site events *)
Definition sorted_events (inputs : list input) (sorted : list sev) : Prop :=
  Permutation (insert_inputs 0 inputs) sorted /\ StronglySorted (fun a b => ~ less (site_of b) (site_of a)) sorted.
Definition inputs_ok (inputs : list input) : Prop :=
  Forall input_int inputs /\ (forall g h s t, In g inputs -> In h inputs -> has_site g s -> has_site h t -> no_overlap s t).

(* ---------- proofs ---------- *)
Lemma point_before_lex p q : point_before p q = true <-> lex_before p q.
Proof. unfold point_before, lex_before. destruct (Z.eqb_spec (px p) (px q)); lia. Qed.
Lemma insert_names : forall inputs k s, In s (insert_inputs k inputs) -> e_inv s = false /\ exists i g, e_initial s = k + i /\ nth_error inputs i = Some g /\ has_site g (site_of s) /\ names inputs i (e_cat s) (e_p0 s) (e_p1 s).
Proof.
  induction inputs as [|g l IH]; intros k s H; cbn [insert_inputs] in H; [destruct H|]. apply in_app_iff in H. destruct H as [H|H].
  - destruct g as [p|p q]; cbn [insert_input In] in H.
    + destruct H as [<-|[]]. split; [reflexivity|]. exists 0, (In_point p). split; [cbn; lia|]. split; [reflexivity|]. unfold names; cbn. repeat split.
    + destruct H as [<-|[<-|[H|[]]]].
      * split; [reflexivity|]. exists 0, (In_segment p q). split; [cbn; lia|]. split; [reflexivity|]. unfold names; cbn. tauto.
      * split; [reflexivity|]. exists 0, (In_segment p q). split; [cbn; lia|]. split; [reflexivity|]. unfold names; cbn. tauto.
      * destruct (point_before p q) eqn:B; subst s; (split; [reflexivity|]); exists 0, (In_segment p q); (split; [cbn; lia|]); (split; [reflexivity|]); unfold names; cbn.
        { apply point_before_lex in B. split; [right; right; left; split; [reflexivity|exact B]|]. right; right; left; repeat split; exact B. }
        { assert (NB : ~ lex_before p q) by (rewrite <- point_before_lex; congruence). split; [right; right; right; split; [reflexivity|exact NB]|]. right; right; right; repeat split; exact NB. }
  - destruct (IH (S k) s H) as [I0 [i [h [I1 [I2 [I3 I4]]]]]]. split; [exact I0|]. exists (S i), h. split; [lia|]. split; [exact I2|]. split; [exact I3|exact I4].
Qed.
Lemma insert_all : forall inputs k g s, In g inputs -> has_site g s -> exists e, In e (insert_inputs k inputs) /\ site_of e = s.
Proof.
  induction inputs as [|h l IH]; intros k g s G H; [destruct G|]. destruct G as [->|G].
  - assert (X : exists e, In e (insert_input k g) /\ site_of e = s).
    { destruct g as [p|p q]; cbn [has_site insert_input In] in *.
      - eexists. split; [left; reflexivity|]. symmetry. exact H.
      - destruct H as [->|[->|[[-> B]|[-> B]]]].
        + eexists. split; [left; reflexivity|reflexivity].
        + eexists. split; [right; left; reflexivity|reflexivity].
        + apply point_before_lex in B. rewrite B. eexists. split; [right; right; left; reflexivity|reflexivity].
        + rewrite <- point_before_lex in B. destruct (point_before p q); [congruence|]. eexists. split; [right; right; left; reflexivity|reflexivity]. }
    destruct X as [e [E1 E2]]. exists e. split; [cbn [insert_inputs]; apply in_app_iff; left; exact E1|exact E2].
  - destruct (IH (S k) g s G H) as [e [E1 E2]]. exists e. split; [cbn [insert_inputs]; apply in_app_iff; right; exact E1|exact E2].
Qed.
Lemma has_site_ok g s : input_int g -> has_site g s -> site_ok s.
Proof.
  assert (TRI : forall p q, ~ lex_before p q -> q = p \/ lex_before q p).
  { intros p q N. destruct (Z.lt_trichotomy (px p) (px q)) as [H|[H|H]]; [exfalso; apply N; left; exact H| |right; left; exact H].
    destruct (Z.lt_trichotomy (py p) (py q)) as [K|[K|K]]; [exfalso; apply N; right; split; assumption|left; apply pt_ext; congruence|right; right; split; congruence]. }
  destruct g as [p|p q]; cbn [input_int has_site]; [intros P ->|intros [P Q] [->|[->|[[-> B]|[-> B]]]]]; unfold site_ok, is_point; cbn [s_p0 s_p1]; try tauto.
  destruct (TRI p q B); tauto.
Qed.
Lemma sev_unique_from_map : forall l a, map site_of (sev_unique_from a l) = unique_from (site_of a) (map site_of l).
Proof. induction l as [|b l IH]; intros a; cbn [sev_unique_from unique_from map]; [reflexivity|]. destruct (site_eqb _ _); [apply IH|]. cbn [map]. rewrite IH. reflexivity. Qed.
Lemma sev_unique_map l : map site_of (sev_unique l) = unique_sites (map site_of l).
Proof. destruct l as [|a l]; [reflexivity|apply sev_unique_from_map]. Qed.
Lemma sev_unique_in l x : In x (sev_unique l) -> In x l.
Proof.
  destruct l as [|a l]; [intros []|]. cbn [sev_unique]. revert a. induction l as [|b l IH]; intros a H; cbn [sev_unique_from] in H; [exact H|]. destruct (site_eqb _ _).
  - specialize (IH a H). cbn [In] in *. tauto.
  - destruct H as [<-|H]; [left; reflexivity|]. right. exact (IH b H).
Qed.
Lemma sev_unique_length l : length (sev_unique l) <= length l.
Proof.
  destruct l as [|a l]; [apply le_n|]. cbn [sev_unique]. revert a. induction l as [|b l IH]; intros a; cbn [sev_unique_from]; [apply le_n|]. destruct (site_eqb _ _); cbn [length] in *; [specialize (IH a)|specialize (IH b)]; lia.
Qed.
Lemma number_nth : forall l k i, nth_error (number_from k l) i = option_map (set_sorted (k + i)) (nth_error l i).
Proof. induction l as [|s l IH]; intros k [|i]; cbn [number_from nth_error option_map]; try reflexivity; [rewrite Nat.add_0_r; reflexivity|]. rewrite IH. replace (S k + i) with (k + S i) by lia. reflexivity. Qed.
Lemma number_length : forall l k, length (number_from k l) = length l.
Proof. induction l as [|s l IH]; intros k; cbn [number_from length]; [reflexivity|]. rewrite IH. reflexivity. Qed.
Lemma number_site : forall l k, map site_of (number_from k l) = map site_of l.
Proof. induction l as [|s l IH]; intros k; cbn [number_from map]; [reflexivity|]. rewrite IH. reflexivity. Qed.
Lemma sev_segment_site s : sev_segment s = is_segment (site_of s).
Proof. unfold sev_segment, is_segment, pt_eqb. cbn [site_of s_p0 s_p1]. rewrite negb_andb. reflexivity. Qed.
Lemma sorted_nth {T : Type} (R : T -> T -> Prop) l : StronglySorted R l -> forall i j a b, nth_error l i = Some a -> nth_error l j = Some b -> i < j -> R a b.
Proof.
  induction 1 as [|x l S IH F]; intros i j a b A B L; [destruct i; discriminate|]. destruct j as [|j]; [lia|]. cbn [nth_error] in B. destruct i as [|i]; cbn [nth_error] in A.
  - assert (x = a) by congruence. subst x. rewrite Forall_forall in F. apply F. eapply nth_error_In. exact B.
  - apply (IH i j a b A B). lia.
Qed.
Lemma sorted_map {A B : Type} (f : A -> B) (R : B -> B -> Prop) l : StronglySorted (fun a b => R (f a) (f b)) l -> StronglySorted R (map f l).
Proof. induction 1 as [|x l S IH F]; cbn [map]; constructor; [exact IH|]. apply Forall_forall. intros y Y. apply in_map_iff in Y. destruct Y as [z [<- Z]]. rewrite Forall_forall in F. exact (F z Z). Qed.

Section Queue.
Variables (inputs : list input) (sorted : list sev).
Hypothesis OK : inputs_ok inputs.
Hypothesis SORT : sorted_events inputs sorted.
Let all := site_queue sorted.
Lemma queue_sites : map site_of all = unique_sites (map site_of sorted).
Proof. unfold all, site_queue. rewrite number_site. apply sev_unique_map. Qed.
Lemma queue_site s : In s (map site_of sorted) <-> exists g, In g inputs /\ has_site g s.
Proof.
  destruct SORT as [P _]. split.
  - intros H. apply in_map_iff in H. destruct H as [e [<- E]]. apply (Permutation_in _ (Permutation_sym P)) in E. destruct (insert_names inputs 0 e E) as [_ [i [g [_ [G [H _]]]]]]. exists g. split; [eapply nth_error_In; exact G|exact H].
  - intros [g [G H]]. destruct (insert_all inputs 0 g s G H) as [e [E <-]]. apply in_map. exact (Permutation_in _ P E).
Qed.
Lemma queue_facts : (forall s, In s (map site_of all) <-> exists g, In g inputs /\ has_site g s) /\ NoDup (map site_of all) /\ StronglySorted site_before (map site_of all) /\ Forall site_ok (map site_of all).
Proof.
  destruct OK as [OI NO]. destruct SORT as [P S].
  assert (OKS : Forall site_ok (map site_of sorted)).
  { apply Forall_forall. intros s H. apply queue_site in H. destruct H as [g [G H]]. rewrite Forall_forall in OI. exact (has_site_ok g s (OI g G) H). }
  assert (NOS : forall a b, In a (map site_of sorted) -> In b (map site_of sorted) -> no_overlap a b).
  { intros a b A B. apply queue_site in A, B. destruct A as [g [G A]], B as [h [H B]]. exact (NO g h a b G H A B). }
  destruct (C44_queue (map site_of sorted) (map site_of sorted) OKS NOS (Permutation_refl _)) as [Q1 [Q2 Q3]].
  { unfold sorted_sites. apply (sorted_map site_of (fun a b => ~ less b a)). exact S. }
  rewrite queue_sites. split; [intros s; rewrite Q1; apply queue_site|]. split; [exact Q2|].
  assert (OKU : Forall site_ok (unique_sites (map site_of sorted))) by (apply Forall_forall; intros x X; apply Q1 in X; exact (proj1 (Forall_forall _ _) OKS x X)).
  split; [|exact OKU]. revert Q3 OKU. generalize (unique_sites (map site_of sorted)). clear. intros l SB. induction SB as [|a l S IH F]; intros OK; constructor.
  - apply IH. exact (Forall_inv_tail OK).
  - rewrite Forall_forall in *. intros x X. apply less_before; [apply OK; left; reflexivity|apply OK; right; exact X|apply F; exact X].
Qed.
Lemma queue_element i s : nth_error all i = Some s -> exists e, In e (insert_inputs 0 inputs) /\ s = set_sorted i e.
Proof.
  unfold all, site_queue. rewrite number_nth. destruct (nth_error (sev_unique sorted) i) as [e|] eqn:N; [|discriminate]. cbn [option_map]. intros H. exists e. split; [|cbn in H; congruence].
  apply (Permutation_in _ (Permutation_sym (proj1 SORT))). apply sev_unique_in. eapply nth_error_In. exact N.
Qed.
Lemma queue_numbered : numbered all.
Proof.
  intros i s H. destruct (queue_element i s H) as [e [E ->]]. split; [reflexivity|]. destruct (insert_names inputs 0 e E) as [I0 [k [g [_ [G [HS _]]]]]]. split; [exact I0|].
  destruct OK as [OI _]. rewrite Forall_forall in OI. destruct (has_site_ok g _ (OI g (nth_error_In _ _ G)) HS) as [P0 [P1 _]]. split; assumption.
Qed.
Lemma queue_nth_site i s : nth_error all i = Some s -> nth_error (map site_of all) i = Some (site_of s).
Proof. intros H. apply map_nth_error. exact H. Qed.
(* both end points of a segment are sites *)
Lemma ends_are_sites s : In s (map site_of all) -> In (mk_site (s_p0 s) (s_p0 s)) (map site_of all) /\ In (mk_site (s_p1 s) (s_p1 s)) (map site_of all).
Proof.
  destruct queue_facts as [Q _]. rewrite !Q. intros [g [G H]]. split; exists g; (split; [exact G|]); destruct g as [p|p q]; cbn [has_site] in *; [subst s; reflexivity| |subst s; reflexivity|]; destruct H as [->|[->|[[-> _]|[-> _]]]]; cbn [s_p0 s_p1]; tauto.
Qed.
Lemma queue_begins : begins_vertical all.
Proof.
  unfold begins_vertical. destruct all as [|s l] eqn:A; [exact Logic.I|]. destruct queue_facts as [_ [_ [Q3 _]]]. pose proof (ends_are_sites (site_of s)) as ES. rewrite A in *. cbn [map] in *.
  destruct ES as [E0 _]; [left; reflexivity|]. destruct E0 as [E0|E0].
  - apply (f_equal s_p1) in E0. cbn [s_p0 s_p1 site_of] in E0. unfold sev_vertical. rewrite E0. apply Z.eqb_refl.
  - inversion Q3 as [|x y _ F]; subst. rewrite Forall_forall in F. specialize (F _ E0). unfold site_before in F. cbn [site_of s_p0 s_p1] in F. unfold vertical_site in F. cbn [s_p0 s_p1] in F. unfold sev_vertical. apply Z.eqb_eq.
    destruct F as [F|[_ [F|[F|F]]]]; [lia|tauto|tauto|]. exfalso. tauto.
Qed.
Lemma queue_ordered : ordered all.
Proof.
  destruct queue_facts as [Q1 [Q2 [Q3 Q4]]]. split.
  - intros i j s t A B SA SB L. pose proof (sorted_nth _ _ Q3 i j _ _ (queue_nth_site _ _ A) (queue_nth_site _ _ B) L) as H. rewrite sev_segment_site in SA, SB. apply is_segment_false in SA, SB.
    apply point_before_lex. unfold site_before, is_point, vertical_site, lex_before in *. cbn [site_of s_p0 s_p1] in *. rewrite <- SA, <- SB in *.
    destruct H as [H|[H1 H2]]; [left; exact H|right; split; [exact H1|]]. destruct H2 as [[_ N]|[[_ [_ [N|[_ [_ N]]]]]|[N _]]]; [tauto|exact N|tauto|tauto].
  - intros i s A SS. pose proof (queue_nth_site _ _ A) as AS. destruct (ends_are_sites (site_of s) (nth_error_In _ _ AS)) as [_ E1]. cbn [site_of s_p1] in E1.
    apply in_map_iff in E1. destruct E1 as [t [T1 T2]]. apply In_nth_error in T2. destruct T2 as [j J]. exists j, t. assert (T0 : e_p0 t = e_p1 s) by (apply (f_equal s_p0) in T1; exact T1). assert (T3 : e_p1 t = e_p1 s) by (apply (f_equal s_p1) in T1; exact T1).
    split; [|split; [exact J|]; split; [unfold sev_segment; rewrite T0, T3, !Z.eqb_refl; reflexivity|exact T0]].
    rewrite sev_segment_site in SS. apply is_segment_spec in SS. rewrite Forall_forall in Q4. destruct (Q4 _ (nth_error_In _ _ AS)) as [_ [_ LX]]. destruct LX as [LX|LX]; [contradiction|]. unfold is_point in SS. cbn [site_of s_p0 s_p1] in *.
    destruct (Nat.lt_trichotomy i j) as [L|[L|L]]; [exact L|exfalso|exfalso].
    + subst j. assert (t = s) by congruence. subst t. congruence.
    + pose proof (sorted_nth _ _ Q3 j i _ _ (queue_nth_site _ _ J) AS L) as H. rewrite T1 in H. unfold site_before, is_point, vertical_site, lex_before in *. cbn [site_of s_p0 s_p1] in *.
      destruct H as [H|[H1 [[H2 H3]|[[H2 [H3 H4]]|[H2 H3]]]]]; try lia; try (apply H3; lia).
Qed.
Lemma queue_length : length all <= length (insert_inputs 0 inputs).
Proof. unfold all, site_queue. rewrite number_length. rewrite (Permutation_length (proj1 SORT)). apply sev_unique_length. Qed.
End Queue.
