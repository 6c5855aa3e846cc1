(* The edges at a vertex in their order. *)
From Verif Require Import Base Units Outcome Scan90Spec Poly90Spec Poly90Model Poly90Proofs GeoSpec IvlModel RectModel SegModel PolySpec PolyModel PolyEdge ScanBaseModel ScanBaseOab SnapModel SnapSpec SnapProofs SnapLoops ArbSpec ArbOrder ArbSums ArbModel ArbMaps ArbLess ArbLine ArbColumn ArbBool ArbSetModel ArbSetProofs ArbSetCor ArbFormSpec ArbFormModel ArbFormChains ArbFormPoint ArbFormGeo ArbFormLine.
From Coq Require Import Reals Lra Sorting.Sorted Sorting.Permutation.

Lemma mark_nv {A B : Type} (vert : A -> bool) (f : bool -> A -> B) l : (forall a, In a l -> vert a = false) -> mark_last vert f l = map (fun a => (f false a, false)) l.
Proof.
  induction l as [|a l IH]; intros H; [reflexivity|]. destruct l as [|b l]; cbn [mark_last map]; [rewrite (H a (or_introl eq_refl)); reflexivity|].
  f_equal. apply IH. intros c C. apply H. right. exact C.
Qed.
Lemma mark_snoc {A B : Type} (vert : A -> bool) (f : bool -> A -> B) l z : mark_last vert f (l ++ [z]) = map (fun a => (f false a, false)) l ++ [(f (vert z) z, vert z)].
Proof.
  induction l as [|a l IH]; [reflexivity|]. cbn [map app]. rewrite <- IH. destruct (l ++ [z]) eqn:Q; [destruct l; discriminate|reflexivity].
Qed.
Lemma last_flag_snoc (m : list ient) z : (forall i, In i m -> snd i = false) -> last_flag (m ++ [z]).
Proof.
  intros H a x b Q N. apply H. destruct (rev_cases b N) as [b' [w ->]]. change (m ++ [z] = a ++ (x :: b') ++ [w]) in Q. rewrite app_assoc in Q. apply app_inj_tail in Q as [-> _]. apply in_or_app. right. left. reflexivity.
Qed.
Lemma last_flag_nv (m : list ient) : (forall i, In i m -> snd i = false) -> last_flag m.
Proof. intros H a x b -> _. apply H, in_or_app. right. left. reflexivity. Qed.
Lemma filter_all {A : Type} (f : A -> bool) l : (forall a, In a l -> f a = true) -> filter f l = l.
Proof. induction l as [|a l IH]; intros H; [reflexivity|]. cbn [filter]. rewrite (H a (or_introl eq_refl)). f_equal. apply IH. intros b B. apply H. right. exact B. Qed.
Lemma filter_none {A : Type} (f : A -> bool) l : (forall a, In a l -> f a = false) -> filter f l = [].
Proof. induction l as [|a l IH]; intros H; [reflexivity|]. cbn [filter]. rewrite (H a (or_introl eq_refl)). apply IH. intros b B. apply H. right. exact B. Qed.

Lemma pos_cross a b c d : 0 < a -> 0 < b -> (0 < (a * b) * (a * d - c * b) <-> c * b < d * a).
Proof. intros A B. assert (K : 0 < a * b) by (apply Z.mul_pos_pos; assumption). split; [intros H; apply Z.mul_pos_cancel_l in H; [lia|exact K]|]. intros H. apply Z.mul_pos_pos; [exact K|lia]. Qed.
Lemma neg_cross a b c d : a < 0 -> b < 0 -> (0 < (a * b) * (a * d - c * b) <-> - c * - b < - d * - a).
Proof. intros A B. assert (K : 0 < a * b) by (apply Z.mul_neg_neg; assumption). split; [intros H; apply Z.mul_pos_cancel_l in H; [lia|exact K]|]. intros H. apply Z.mul_pos_pos; [exact K|lia]. Qed.

Section vert.
  Variable r : list pedge.
  Hypothesis nd : NoDup (map fst r).
  Hypothesis nod0 : noded (map fst r).
  Hypothesis ge : good_edges r.
  Hypothesis one : forall e c, In (e, c) r -> c = 1 \/ c = -1.
  Hypothesis clo : closed (as_set r).
  Hypothesis dep : forall x y, b01 (depth_below (as_set r) 0 x y) /\ b01 (depth_below_left (as_set r) 0 x y).
  Notation l := (fl r).
  Notation E := (map fst (fl r)).
  Notation ow := (ow r).
  Let nodE : noded E := nod r nod0.
  Let oE := ordE' r ge.
  Let fE := fitE' r ge.
  Variables X y : Z.
  Notation p := (mk_pt X y).
  Hypothesis vtx : vertex l X y.

  Definition starts : list (point * Z) := map (fun e => (s_high (fst e), snd e)) (filter (fun e => eq_pt (s_low (fst e)) p) r).
  Lemma starts_in i : In i starts <-> exists e, In e E /\ s_low e = p /\ i = (s_high e, ow e).
  Proof.
    unfold starts. rewrite in_map_iff. split.
    - intros [[e c] [<- H]]. apply filter_In in H as [H K]. cbn [fst snd] in *. exists e. split; [apply (r_E r e c H)|]. split; [apply eq_pt_iff, K|]. rewrite (own_r r nd e c H). reflexivity.
    - intros [e [H [K ->]]]. exists (e, ow e). split; [reflexivity|]. apply filter_In. split; [apply r_own; assumption|]. apply eq_pt_iff, K.
  Qed.
  Definition of_i (i : point * Z) : seg := mk_seg p (fst i).
  Lemma of_start e : s_low e = p -> of_i (s_high e, ow e) = e.
  Proof. intros H. destruct e as [a b]. cbn [s_low] in H. subst a. reflexivity. Qed.
  Lemma starts_nodup : NoDup starts.
  Proof.
    apply (NoDup_map_inv of_i). unfold starts. rewrite map_map. assert (Q : map (fun e => of_i (s_high (fst e), snd e)) (filter (fun e => eq_pt (s_low (fst e)) p) r) = map fst (filter (fun e => eq_pt (s_low (fst e)) p) r)).
    { apply map_ext_in. intros e H. apply filter_In in H as [_ H]. apply eq_pt_iff in H. destruct e as [[a b] c]. cbn [fst snd s_low s_high] in *. subst a. reflexivity. }
    rewrite Q. clear - nd. induction r as [|a r0 IH]; [constructor|]. cbn [map] in nd. inversion nd as [|? ? N1 N2]; subst. cbn [filter]. destruct (eq_pt (s_low (fst a)) p); [|apply IH, N2]. cbn [map]. constructor; [|apply IH, N2].
    intros K. apply N1. apply in_map_iff in K as [b [<- K]]. apply in_map. apply filter_In in K. apply K.
  Qed.
  Definition inc_lt (a b : point * Z) : Prop := nvb (of_i a) = true /\ (nvb (of_i b) = true -> lte (of_i a) (of_i b)).
  Lemma nvb_dx e : In e E -> (nvb e = true <-> 0 < dx e).
  Proof. intros H. rewrite (nvb_iff r ge e H). unfold dx. lia. Qed.
  Lemma nvb_0 e : In e E -> (nvb e = false <-> dx e = 0).
  Proof. intros H. apply oE, ordered_iff in H. unfold dx, nvb, vertical_edge. rewrite negb_false_iff, Z.eqb_eq. lia. Qed.
  Lemma fit_int e : In e E -> pt_int (s_low e) /\ pt_int (s_high e).
  Proof. intros H. apply fits_int, fE, H. Qed.
  Lemma cnt_less_ok a b : In a starts -> In b starts -> exists c, cnt_less p a b = Ok c /\ (c = true <-> inc_lt a b).
  Proof.
    intros A B. apply starts_in in A as [e [E1 [E2 ->]]]. apply starts_in in B as [f [F1 [F2 ->]]]. unfold cnt_less. eexists. split; [reflexivity|]. cbn [fst].
    unfold inc_lt. rewrite !of_start by assumption. pose proof (fit_int e E1) as [I1 I2]. pose proof (fit_int f F1) as [I3 I4]. rewrite E2 in I1.
    unfold eu_less_slope. rewrite less_slope4_spec by (apply dif_int; unfold pt_int in *; tauto).
    assert (D1 : px (s_high e) - px p = dx e) by (unfold dx; rewrite E2; reflexivity). assert (D2 : py (s_high e) - py p = dy e) by (unfold dy; rewrite E2; reflexivity).
    assert (D3 : px (s_high f) - px p = dx f) by (unfold dx; rewrite F2; reflexivity). assert (D4 : py (s_high f) - py p = dy f) by (unfold dy; rewrite F2; reflexivity).
    rewrite D1, D2, D3, D4. pose proof (nvb_dx e E1) as Ne. pose proof (nvb_dx f F1) as Nf. pose proof (nvb_0 e E1) as Ze. pose proof (nvb_0 f F1) as Zf.
    destruct (nvb e).
    2: { split; [intros [K _]; exfalso; apply K, Ze; reflexivity|]. intros [K _]. discriminate K. }
    assert (Pe : 0 < dx e) by (apply Ne; reflexivity). destruct (nvb f).
    - assert (Pf : 0 < dx f) by (apply Nf; reflexivity). rewrite (same_low_lte E e f nodE oE E1 F1) by (congruence || assumption). split.
      + intros [_ [K|[_ K]]]; [lia|]. split; [reflexivity|]. intros _. apply pos_cross; assumption.
      + intros [_ K]. specialize (K eq_refl). split; [lia|]. right. split; [lia|]. apply pos_cross; assumption.
    - split; [intros _; split; [reflexivity|discriminate]|]. intros _. split; [lia|]. left. apply Zf. reflexivity.
  Qed.
  Lemma two_up e f : In e E -> In f E -> s_low e = p -> s_low f = p -> nvb e = false -> nvb f = false -> e = f.
  Proof.
    intros E1 F1 E2 F2 V1 V2. unfold nvb in V1, V2. apply negb_false_iff in V1, V2. pose proof (proj1 (vert_iff r ge e E1) V1) as [_ K1]. pose proof (proj1 (vert_iff r ge f F1) V2) as [_ K2].
    symmetry. apply (overlap l nodE (ord r ge) e f E1 F1 V1 V2); rewrite ?E2, ?F2 in *; auto.
  Qed.
  Lemma half_right e : In e E -> s_low e = p -> nvb e = true -> inr e (IZR X + / 2).
  Proof. intros E1 E2 V. apply (nvb_iff r ge e E1) in V. rewrite E2 in V. cbn [px] in V. split; [apply izr_half_lt|apply izr_half_gt]; rewrite ?E2; cbn [px]; lia. Qed.
  Lemma inc_total a b : In a starts -> In b starts -> a = b \/ inc_lt a b \/ inc_lt b a.
  Proof.
    intros A B. apply starts_in in A as [e [E1 [E2 ->]]]. apply starts_in in B as [f [F1 [F2 ->]]]. unfold inc_lt. rewrite !of_start by assumption. destruct (nvb e) eqn:V1, (nvb f) eqn:V2.
    - destruct (lte_total E nodE oE e f _ E1 F1 (half_right e E1 E2 V1) (half_right f F1 F2 V2)) as [->|[K|K]]; auto.
    - right. left. split; [reflexivity|discriminate].
    - right. right. split; [reflexivity|discriminate].
    - left. rewrite (two_up e f E1 F1 E2 F2 V1 V2). reflexivity.
  Qed.
  Lemma inc_trans a b c : In a starts -> In b starts -> In c starts -> inc_lt a b -> inc_lt b c -> inc_lt a c.
  Proof.
    intros A B C. apply starts_in in A as [e [E1 [E2 ->]]]. apply starts_in in B as [f [F1 [F2 ->]]]. apply starts_in in C as [g [G1 [G2 ->]]]. unfold inc_lt. rewrite !of_start by assumption.
    intros [V1 K1] [V2 K2]. split; [exact V1|]. intros V3. apply (lte_trans E nodE oE e f g (IZR X + / 2)); auto; apply half_right; assumption.
  Qed.
  Definition inc_list (m : list seg) (o : option seg) : list ient := map (fun e => ((s_high e, ow e), false)) m ++ match o with Some e => [((s_high e, - ow e), true)] | None => [] end.
  Lemma incoming_ok evs : Permutation evs starts -> exists is m o, o_sort (cnt_less p) evs = Ok is /\ incoming_of X is = inc_list m o /\ StronglySorted lte m /\
    (forall e, In e m <-> In e E /\ begins X y e = true) /\ one_of r (v_up X y) o.
  Proof.
    intros P. assert (IN : forall a, In a evs -> In a starts) by (intros a A; eapply Permutation_in; [exact P|exact A]).
    destruct (o_sort_strict (cnt_less p) inc_lt evs) as [is [S1 [S2 S3]]].
    - eapply Permutation_NoDup; [apply Permutation_sym, P|apply starts_nodup].
    - intros a b A B. apply cnt_less_ok; apply IN; assumption.
    - intros a b A B. apply inc_total; apply IN; assumption.
    - intros a b c A B C. apply inc_trans; apply IN; assumption.
    - assert (MEM : forall i, In i is <-> exists e, In e E /\ s_low e = p /\ i = (s_high e, ow e)).
      { intros i. rewrite <- starts_in. split; intros K; (eapply Permutation_in; [|exact K]); [eapply Permutation_trans; [apply Permutation_sym, S2|exact P]|eapply Permutation_trans; [apply Permutation_sym, P|exact S2]]. }
      assert (VX : forall i, In i is -> (px (fst i) =? X) = negb (nvb (of_i i)) /\ snd i = ow (of_i i) /\ s_high (of_i i) = fst i /\ In (of_i i) E).
      { intros i I. apply MEM in I as [e [E1 [E2 ->]]]. rewrite of_start by exact E2. cbn [fst snd]. split; [|auto]. unfold nvb, vertical_edge. rewrite negb_involutive, E2. cbn [px]. lia. }
      assert (PAIR : StronglySorted lte (map of_i (filter (fun i => nvb (of_i i)) is))).
      { clear - S3. induction S3 as [|a m S IH F]; [constructor|]. cbn [filter]. destruct (nvb (of_i a)) eqn:V; [|exact IH]. cbn [map]. constructor; [exact IH|]. apply Forall_forall. intros e K. apply in_map_iff in K as [b [<- K]]. apply filter_In in K as [K1 K2]. rewrite Forall_forall in F. apply (F b K1), K2. }
      set (m := map of_i (filter (fun i => nvb (of_i i)) is)) in *.
      assert (HM : forall e, In e m <-> In e E /\ begins X y e = true).
      { intros e. unfold m. rewrite in_map_iff. split.
        - intros [i [<- K]]. apply filter_In in K as [K1 K2]. split; [apply VX, K1|]. unfold begins. rewrite K2, andb_true_r. apply eq_pt_iff. reflexivity.
        - intros [K1 K2]. unfold begins in K2. apply andb_true_iff in K2 as [K2 K3]. apply eq_pt_iff in K2. exists (s_high e, ow e). split; [apply of_start, K2|]. apply filter_In. split; [apply MEM; exists e; auto|]. rewrite of_start by exact K2. exact K3. }
      assert (CASES : is = filter (fun i => nvb (of_i i)) is /\ (forall i, In i is -> nvb (of_i i) = true) \/ exists z, nvb (of_i z) = false /\ is = filter (fun i => nvb (of_i i)) is ++ [z] /\ In z is).
      { assert (C : forall i, In i is -> nvb (of_i i) = true \/ exists a, is = a ++ [i]).
        { clear - S3. induction S3 as [|a n S IH F]; [intros i []|]. intros i [<-|I].
          - destruct n as [|b n]; [right; exists []; reflexivity|]. left. rewrite Forall_forall in F. apply (F b). left. reflexivity.
          - destruct (IH i I) as [K|[c K]]; [left; exact K|right]. exists (a :: c). rewrite K. reflexivity. }
        destruct is as [|i0 is'] eqn:QI; [left; split; [reflexivity|intros i []]|]. rewrite <- QI in *. destruct (rev_cases is) as [a [z Q]]; [congruence|].
        assert (AA : forall i, In i a -> nvb (of_i i) = true).
        { intros i I. rewrite Q in S3. clear - S3 I. induction a as [|b a IH]; [destruct I|]. cbn [app] in S3. apply StronglySorted_inv in S3 as [S F]. destruct I as [<-|I]; [|apply IH; assumption]. rewrite Forall_forall in F. apply (F z). apply in_or_app. right. left. reflexivity. }
        destruct (nvb (of_i z)) eqn:V.
        - left. assert (AL : forall i, In i is -> nvb (of_i i) = true) by (intros i I; rewrite Q in I; apply in_app_or in I as [I|[<-|[]]]; [apply AA, I|exact V]). split; [symmetry; apply filter_all, AL|exact AL].
        - right. exists z. split; [exact V|]. split; [|rewrite Q; apply in_or_app; right; left; reflexivity]. rewrite Q at 2. rewrite filter_app. cbn [filter]. rewrite V, app_nil_r, (filter_all _ a) by exact AA. exact Q. }
      destruct CASES as [[Q AL]|[z [V [Q Iz]]]].
      + exists is, m, None. split; [exact S1|]. split; [|split; [exact PAIR|split; [exact HM|]]].
        * unfold incoming_of, inc_list. rewrite app_nil_r, mark_nv by (intros i I; destruct (VX i I) as [-> _]; rewrite (AL i I); reflexivity). unfold m. rewrite <- Q, map_map. apply map_ext_in. intros i I. destruct (VX i I) as [_ [-> [-> _]]]. reflexivity.
        * intros f Hf. unfold v_up. destruct (eq_pt (s_low f) p) eqn:L; [|reflexivity]. apply eq_pt_iff in L. assert (I : In (s_high f, ow f) is) by (apply MEM; exists f; auto). apply AL in I. rewrite of_start in I by exact L. unfold nvb in I. apply negb_true_iff in I. rewrite I. reflexivity.
      + destruct (VX z Iz) as [Z1 [Z2 [Z3 Z4]]]. exists is, m, (Some (of_i z)). split; [exact S1|]. split; [|split; [exact PAIR|split; [exact HM|]]].
        * unfold incoming_of, inc_list. rewrite Q at 1. rewrite mark_snoc, Z1, V. cbn [negb]. rewrite Z2, Z3. f_equal. unfold m. rewrite map_map. apply map_ext_in. intros i I. apply filter_In in I as [I _]. destruct (VX i I) as [_ [-> [-> _]]]. reflexivity.
        * split; [exact Z4|]. split; [unfold v_up; unfold nvb in V; apply negb_false_iff in V; rewrite V, andb_true_r; apply eq_pt_iff; reflexivity|]. intros f Hf K. unfold v_up in K. apply andb_true_iff in K as [K1 K2]. apply eq_pt_iff in K1. apply two_up; auto. unfold nvb. rewrite K2. reflexivity.
  Qed.
  Lemma inc_counts m o : map i_count (inc_list m o) = map ow m ++ vlist r o.
  Proof. unfold inc_list. rewrite map_app, map_map. f_equal. destruct o; reflexivity. Qed.
  Lemma inc_flag m o : last_flag (inc_list m o).
  Proof.
    unfold inc_list. assert (K : forall i, In i (map (fun e => ((s_high e, ow e), false)) m) -> snd i = false) by (intros i I; apply in_map_iff in I as [e [<- _]]; reflexivity).
    destruct o as [e|]; [apply last_flag_snoc, K|rewrite app_nil_r; apply last_flag_nv, K].
  Qed.
  Lemma inc_flags m o : flags (inc_list m o) = match o with Some e => [((s_high e, - ow e), true)] | None => [] end.
  Proof.
    unfold inc_list. rewrite flags_app. assert (flags (map (fun e => ((s_high e, ow e), false)) m) = []) as -> by (unfold flags; apply filter_none; intros i I; apply in_map_iff in I as [e [<- _]]; reflexivity). destruct o; reflexivity.
  Qed.
  Lemma inc_keys m o : (forall e, In e m -> s_low e = p) -> newkeys p (inc_list m o) = map (fun e => (e, ow e)) m.
  Proof.
    intros H. assert (K : forall n, (forall e, In e n -> s_low e = p) -> newkeys p (map (fun e => ((s_high e, ow e), false)) n) = map (fun e => (e, ow e)) n).
    { induction n as [|e n IH]; intros Hn; [reflexivity|]. cbn [map]. rewrite <- IH by (intros f F; apply Hn; right; exact F). unfold newkeys. cbn [filter snd negb map]. f_equal. unfold ikey, i_count. cbn [fst snd]. f_equal. rewrite <- (Hn e (or_introl eq_refl)). destruct e; reflexivity. }
    rewrite <- (K m H). unfold newkeys, inc_list. rewrite filter_app, map_app. destruct o; cbn [filter snd negb map]; apply app_nil_r.
  Qed.

  (* the edges that come to the vertex *)
  Definition down (a b : felem) : Prop := lte (fst b) (fst a).
  Lemma here_sorted here : NoDup (map fst here) -> (forall a, In a here -> fine1 E a /\ s_high (fst a) = p) -> exists cs, o_sort inc_less here = Ok cs /\ Permutation here cs /\ StronglySorted down cs.
  Proof.
    intros N H. assert (IN : forall a, In a here -> inr (fst a) (IZR (X - 1) + / 2)).
    { intros a A. destruct (H a A) as [[_ A1] A2]. rewrite A2 in A1. cbn [px] in A1. split; [apply izr_half_lt; lia|]. rewrite A2. cbn [px]. apply izr_half_gt. lia. }
    apply o_sort_strict.
    - apply (NoDup_map_inv fst), N.
    - intros b a B A. destruct (H a A) as [[A1 A2] A3]. destruct (H b B) as [[B1 B2] B3]. unfold inc_less. pose proof (fE _ A1) as FA. pose proof (fE _ B1) as FB. unfold fits, coord_fits in FA, FB.
      rewrite !int_diff_ok by lia. cbn [obind]. eexists. split; [reflexivity|]. rewrite less_slope4_spec by (unfold dif; lia). unfold down. rewrite (same_high_lte E (fst a) (fst b) nodE oE A1 B1) by (congruence || (unfold dx; lia)). unfold dx, dy.
      pose proof (neg_cross (px (s_low (fst a)) - px (s_high (fst a))) (px (s_low (fst b)) - px (s_high (fst b))) (py (s_low (fst a)) - py (s_high (fst a))) (py (s_low (fst b)) - py (s_high (fst b))) ltac:(lia) ltac:(lia)) as NC.
      rewrite !Z.opp_sub_distr in NC. rewrite !(Z.add_comm (- _)) in NC. rewrite !Z.add_opp_r in NC. split.
      + intros [_ [K|[_ K]]]; [lia|]. apply NC, K.
      + intros K. split; [lia|]. right. split; [lia|]. apply NC, K.
    - intros a b A B. destruct (H a A) as [[A1 A2] A3]. destruct (H b B) as [[B1 B2] B3]. destruct (lte_total E nodE oE (fst a) (fst b) _ A1 B1 (IN a A) (IN b B)) as [K|[K|K]]; [left|right; right; exact K|right; left; exact K].
      clear - N A B K. induction here as [|c h IH]; [destruct A|]. cbn [map] in N. inversion N as [|? ? N1 N2]; subst. destruct A as [<-|A], B as [<-|B]; [reflexivity| | |apply IH; assumption]; exfalso; apply N1; [rewrite <- K|rewrite K]; apply in_map; assumption.
    - intros a b c A B C K1 K2. unfold down in *. destruct (H a A) as [[A1 A2] A3]. destruct (H b B) as [[B1 B2] B3]. destruct (H c C) as [[C1 C2] C3]. apply (lte_trans E nodE oE (fst c) (fst b) (fst a) _ C1 B1 A1 (IN c C) (IN b B) (IN a A)); assumption.
  Qed.
  Lemma ss_map {A B : Type} (R : B -> B -> Prop) (f : A -> B) m : StronglySorted (fun a b => R (f a) (f b)) m -> StronglySorted R (map f m).
  Proof. clear. induction 1 as [|a m S IH F]; [constructor|]. cbn [map]. constructor; [exact IH|]. apply Forall_forall. intros b K. apply in_map_iff in K as [c [<- K]]. rewrite Forall_forall in F. apply F, K. Qed.
End vert.
