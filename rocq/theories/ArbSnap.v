(* The edges that the boolean operations work on: the pieces of the given edges. *)
From Verif Require Import Base Units Outcome Scan90Spec Poly90Spec Poly90Model Poly90Proofs GeoSpec IvlModel RectModel SegModel PolyModel PolyEdge ScanBaseModel ScanBaseOab ScanBaseCross SnapModel SnapSpec SnapNode SnapChain SnapProofs SnapCor ArbSpec ArbOrder ArbSums ArbModel ArbMaps ArbLess ArbLine ArbColumn ArbScan ArbBool ArbResult.
From Coq Require Import Reals Lra Sorting.Sorted Sorting.Permutation.

(* ---------- sums by index ---------- *)
Section group.
  Context {A : Type}.
  Fixpoint idx (b : Z) (l : list A) : list (A * Z) := match l with [] => [] | a :: l' => (a, b) :: idx (b + 1) l' end.
  Lemma idx_in l : forall b a i, In (a, i) (idx b l) -> b <= i /\ nth_error l (Z.to_nat (i - b)) = Some a.
  Proof.
    induction l as [|a' l IH]; intros b a i H; [destruct H|]. cbn [idx In] in H. destruct H as [H|H].
    - assert (a' = a) by congruence. assert (b = i) by congruence. subst. rewrite Z.sub_diag. split; [lia|reflexivity].
    - apply IH in H as [H K]. split; [lia|]. replace (Z.to_nat (i - b)) with (S (Z.to_nat (i - (b + 1)))) by lia. exact K.
  Qed.
  Lemma idx_pick l j (c : Z) : forall b, b <= j < b + Z.of_nat (length l) -> tot (fun p => if j =? snd p then c else 0) (idx b l) = c.
  Proof.
    induction l as [|a l IH]; intros b H; cbn [length] in H; [lia|]. cbn [idx tot snd]. destruct (j =? b) eqn:Q.
    - rewrite tot_zero; [lia|]. intros [a' i] K. apply idx_in in K. cbn [snd]. destruct (j =? i) eqn:W; [lia|reflexivity].
    - rewrite IH; lia.
  Qed.
  Lemma idx_tot (h : A -> Z) l : forall b, tot (fun p => h (fst p)) (idx b l) = tot h l.
  Proof. induction l as [|a l IH]; intros b; [reflexivity|]. cbn [idx tot fst]. rewrite IH. reflexivity. Qed.
  Lemma group (l : list A) (out : list entry) (f : entry -> Z) : (forall e, In e out -> 0 <= snd e < Z.of_nat (length l)) ->
    tot f out = tot (fun p => tot f (filter (fun e => snd e =? snd p) out)) (idx 0 l).
  Proof.
    intros H. rewrite (tot_ext (fun p : A * Z => tot f (filter (fun e => snd e =? snd p) out)) (fun p => tot (fun e => if snd e =? snd p then f e else 0) out)) by (intros p _; symmetry; apply tot_filter).
    rewrite tot_swap. apply tot_ext. intros e He. rewrite idx_pick; [reflexivity|]. pose proof (H e He). lia.
  Qed.
End group.
Lemma tot_scale {A : Type} (f : A -> Z) c l : tot (fun a => f a * c) l = tot f l * c.
Proof. induction l as [|a l IH]; [reflexivity|]. cbn [tot]. rewrite IH. ring. Qed.

(* ---------- paths ---------- *)
Definition b01 (b : bool) : Z := if b then 1 else 0.
Lemma path_ends v : forall ts p q, path p ts q -> tot (fun o => b01 (eq_pt (s_low o) v) - b01 (eq_pt (s_high o) v)) ts = b01 (eq_pt p v) - b01 (eq_pt q v).
Proof.
  induction ts as [|t ts IH]; intros p q H; cbn [path] in H; [subst; cbn [tot]; lia|]. destruct H as [<- H]. cbn [tot]. rewrite (IH _ _ H). lia.
Qed.
Lemma path_ne : forall ts p q t, path p ts q -> NoDup (p :: map s_high ts) -> In t ts -> s_low t <> s_high t.
Proof.
  induction ts as [|u ts IH]; intros p q t P N K; [destruct K|]. cbn [path map] in *. destruct P as [E P]. inversion N as [|? ? N1 N2]; subst. destruct K as [<-|K].
  - intros Q. apply N1. left. symmetry. exact Q.
  - apply (IH (s_high u) q t P N2 K).
Qed.
Lemma path_spans (sp : seg -> bool) (g : point -> bool) : forall ts p q, path p ts q -> (forall o, In o ts -> b01 (sp o) = b01 (g (s_low o)) - b01 (g (s_high o))) ->
  tot (fun o => b01 (sp o)) ts = b01 (g p) - b01 (g q).
Proof.
  induction ts as [|t ts IH]; intros p q H S; cbn [path] in H; [subst; cbn [tot]; lia|]. destruct H as [<- H]. cbn [tot]. rewrite (IH _ _ H) by (intros o K; apply S; right; exact K). rewrite (S t (or_introl eq_refl)). lia.
Qed.
Lemma spans_r_ind o x : (px (s_low o) <= px (s_high o)) -> b01 (spans_r o x) = b01 (rleb (IZR (px (s_low o))) x) - b01 (rleb (IZR (px (s_high o))) x).
Proof.
  intros H. apply IZR_le in H. unfold spans_r, rleb, rltb. destruct (Rle_dec (IZR (px (s_low o))) x) as [A|A], (Rlt_dec x (IZR (px (s_high o)))) as [B|B], (Rle_dec (IZR (px (s_high o))) x) as [C|C]; cbn [andb b01]; try lia; exfalso; lra.
Qed.
Lemma spans_l_ind o x : (px (s_low o) <= px (s_high o)) -> b01 (spans_l o x) = b01 (rltb (IZR (px (s_low o))) x) - b01 (rltb (IZR (px (s_high o))) x).
Proof.
  intros H. apply IZR_le in H. unfold spans_l, rleb, rltb. destruct (Rlt_dec (IZR (px (s_low o))) x) as [A|A], (Rle_dec x (IZR (px (s_high o)))) as [B|B], (Rlt_dec (IZR (px (s_high o))) x) as [C|C]; cbn [andb b01]; try lia; exfalso; lra.
Qed.

(* ---------- one piece ---------- *)
Definition conv (s : seg) (k c : Z) (o : seg) : vprop :=
  let c1 := if Bool.eqb (pt_less (s_low o) (s_high o)) (pt_less (s_low s) (s_high s)) then c else c * -1 in
  let c2 := if negb (sb_vertical s) && sb_vertical o then c1 * -1 else c1 in
  (if pt_less (s_high o) (s_low o) then mk_seg (s_high o) (s_low o) else o, (k, c2)).
Section conv.
  Variables (s : seg) (k c : Z) (o : seg).
  Hypothesis O : ordered s.
  Hypothesis NE : s_low o <> s_high o.
  Hypothesis VV : vertical_edge s = true -> vertical_edge o = true.
  Lemma less_s : pt_less (s_low s) (s_high s) = true.
  Proof. exact O. Qed.
  Lemma less_o : pt_less (s_low o) (s_high o) = negb (pt_less (s_high o) (s_low o)).
  Proof. clear - NE. apply ArbSums.bool_eq. rewrite negb_true_iff, <- not_true_iff_false. unfold pt_less. rewrite !orb_true_iff, !andb_true_iff, !Z.ltb_lt, !Z.eqb_eq.
    destruct o as [[a b] [a' b']]. cbn [s_low s_high px py] in *. assert (a <> a' \/ b <> b') by (destruct (Z.eq_dec a a'), (Z.eq_dec b b'); auto; exfalso; apply NE; congruence). lia. Qed.
  Lemma conv_ordered : ordered (fst (conv s k c o)).
  Proof. unfold ordered. change lex_lt with pt_less. unfold conv. cbn [fst]. destruct (pt_less (s_high o) (s_low o)) eqn:Q; [cbn [s_low s_high]; exact Q|]. rewrite less_o, Q. reflexivity. Qed.
  Lemma conv_same : same_seg o (fst (conv s k c o)).
  Proof. unfold conv, same_seg. cbn [fst]. destruct (pt_less (s_high o) (s_low o)); auto. Qed.
  Lemma conv_along k' v : (if eq_pt (s_low (fst (conv s k c o))) v then along k' (conv s k c o) else 0) - (if eq_pt (s_high (fst (conv s k c o))) v then along k' (conv s k c o) else 0)
    = (b01 (eq_pt (s_low o) v) - b01 (eq_pt (s_high o) v)) * along k' (s, (k, c)).
  Proof.
    unfold conv, along, wt. cbn [fst snd]. rewrite less_s, less_o. change (sb_vertical s) with (vertical_edge s). change (sb_vertical o) with (vertical_edge o).
    assert (VR : vertical_edge (mk_seg (s_high o) (s_low o)) = vertical_edge o) by (unfold vertical_edge; cbn [s_low s_high]; apply Z.eqb_sym).
    destruct (pt_less (s_high o) (s_low o)); cbn [negb Bool.eqb s_low s_high]; rewrite ?VR; (destruct (vertical_edge s) eqn:Vs; [rewrite (VV eq_refl)|destruct (vertical_edge o)]); cbn [negb andb];
      destruct (k =? k'), (eq_pt (s_low o) v), (eq_pt (s_high o) v); cbn [b01]; lia.
  Qed.
  Lemma conv_nv : px (s_low o) <= px (s_high o) -> vertical_edge o = false -> conv s k c o = (o, (k, c)).
  Proof.
    intros LE V. assert (pt_less (s_high o) (s_low o) = false) as Q. { unfold vertical_edge in V. apply Z.eqb_neq in V. unfold pt_less. apply orb_false_iff. rewrite andb_false_iff, Z.ltb_ge, Z.eqb_neq. lia. }
    unfold conv. rewrite less_s, less_o, Q. change (sb_vertical o) with (vertical_edge o). rewrite V, andb_false_r. reflexivity.
  Qed.
End conv.

Lemma lo_ordered s : ordered s -> lo_end s = s_low s /\ hi_end s = s_high s.
Proof. intros O. unfold lo_end, hi_end. change lex_lt with pt_less. rewrite (ordered_pt s O). auto. Qed.
Lemma asc_ordered s : ordered s -> asc s = s.
Proof. intros O. unfold asc. destruct (lo_ordered s O) as [-> ->]. destruct s. reflexivity. Qed.
Lemma asc_small s : seg_small (asc s) -> seg_small s.
Proof. unfold asc, lo_end, hi_end. destruct (lex_lt (s_high s) (s_low s)); [|destruct s; auto]. unfold seg_small. cbn [s_low s_high]. intros [A [B [C D]]]. split; [exact B|]. split; [exact A|]. lia. Qed.
Lemma asc_on s x y : on_r (asc s) x y <-> on_r s x y.
Proof.
  unfold asc, lo_end, hi_end. destruct (lex_lt (s_high s) (s_low s)); [|destruct s; tauto]. unfold on_r. cbn [s_low s_high].
  split; intros [t [T [A B]]]; exists (1 - t)%R; (split; [lra|]); split; lra.
Qed.
Lemma asc_fst (l : list vprop) : (forall e, In e l -> ordered (fst e) /\ fits (fst e) /\ INT_MIN < px (s_low (fst e))) -> map asc (map fst l) = map fst l.
Proof. intros G. rewrite map_map. apply map_ext_in. intros e H. apply asc_ordered, G, H. Qed.

(* ---------- all pieces ---------- *)
Section snap.
  Variable l : list vprop.
  Hypothesis good : forall e, In e l -> ordered (fst e) /\ fits (fst e) /\ INT_MIN < px (s_low (fst e)).
  (* the segments that are split: those of l, perhaps in the other direction *)
  Variable l0 : list seg.
  Hypothesis SAME : map asc l0 = map fst l.
  Variable out : list (seg * Z).
  Hypothesis OUT : intersect_segments l0 = Ok out.
  Let small : forall s, In s l0 -> seg_small s.
  Proof.
    intros s H. apply (in_map asc) in H. rewrite SAME in H. apply in_map_iff in H as [e [E H]]. apply good in H as [_ [H _]]. apply fits_small in H. rewrite E in H. apply asc_small, H.
  Qed.
  Definition pcs : list vprop := map (fun e => match nth_error l (Z.to_nat (snd e)) with Some (s, (k, c)) => conv s k c (fst e) | None => (fst e, (0, 0)) end) out.

  Lemma nth_fst n e : nth_error l n = Some e -> exists s0, nth_error l0 n = Some s0 /\ asc s0 = fst e.
  Proof.
    intros H. apply (map_nth_error fst) in H. rewrite <- SAME in H. rewrite nth_error_map in H. destruct (nth_error l0 n) as [s0|]; [|discriminate]. exists s0. split; [reflexivity|]. cbn [option_map] in H. congruence.
  Qed.
  Section piece.
    Variables (i : Z) (e : vprop).
    Hypothesis I0 : 0 <= i.
    Hypothesis N : nth_error l (Z.to_nat i) = Some e.
    Let s := fst e.
    Lemma e_in : In e l.
    Proof. apply (nth_error_In _ _ N). Qed.
    Lemma p_path : path (s_low s) (pieces i out) (s_high s) /\ NoDup (s_low s :: map s_high (pieces i out)).
    Proof.
      destruct (nth_fst _ _ N) as [s0 [N0 A0]]. pose proof (result_path l0 out small OUT (Z.to_nat i) s0 N0) as H. rewrite Z2Nat.id in H by exact I0. unfold s. rewrite <- A0. exact H.
    Qed.
    Lemma p_ne o : In o (pieces i out) -> s_low o <> s_high o.
    Proof. apply (path_ne _ _ _ _ (proj1 p_path) (proj2 p_path)). Qed.
    Lemma p_near o x y : In o (pieces i out) -> on_r o x y -> exists x' y', on_r s x' y' /\ within x y x' y'.
    Proof.
      intros K ON. destruct (nth_fst _ _ N) as [s0 [N0 A0]]. pose proof (result_near l0 out small OUT (Z.to_nat i) s0 o x y N0) as H. rewrite Z2Nat.id in H by exact I0.
      destruct (H K ON) as [x' [y' [H1 H2]]]. exists x', y'. split; [unfold s; rewrite <- A0; apply asc_on, H1|exact H2].
    Qed.
    Lemma p_axis o x y : px (s_low s) = px (s_high s) \/ py (s_low s) = py (s_high s) -> In o (pieces i out) -> on_r o x y -> on_r s x y.
    Proof.
      intros A K ON. destruct (nth_fst _ _ N) as [s0 [N0 A0]]. assert (A' : px (s_low s0) = px (s_high s0) \/ py (s_low s0) = py (s_high s0)).
      { unfold s in A. rewrite <- A0 in A. unfold asc, lo_end, hi_end in A. destruct (lex_lt _ _); cbn [s_low s_high] in A; intuition congruence. }
      pose proof (result_axis l0 out small OUT (Z.to_nat i) s0 o x y N0 A') as H. rewrite Z2Nat.id in H by exact I0. unfold s. rewrite <- A0. apply asc_on, H; assumption.
    Qed.
    Lemma on_box x y : on_r s x y -> (IZR (px (s_low s)) <= x <= IZR (px (s_high s)))%R /\ (Rmin (IZR (py (s_low s))) (IZR (py (s_high s))) <= y <= Rmax (IZR (py (s_low s))) (IZR (py (s_high s))))%R.
    Proof.
      intros [t [T [-> ->]]]. assert (O : ordered s) by (apply good, e_in). apply ordered_iff in O. assert (L : (IZR (px (s_low s)) <= IZR (px (s_high s)))%R) by (apply IZR_le; lia). split; [split; nra|].
      unfold Rmin, Rmax. destruct (Rle_dec _ _); split; nra.
    Qed.
    Lemma p_box o p : In o (pieces i out) -> p = s_low o \/ p = s_high o -> px (s_low s) <= px p <= px (s_high s) /\ Z.min (py (s_low s)) (py (s_high s)) <= py p <= Z.max (py (s_low s)) (py (s_high s)).
    Proof.
      intros K P. assert (ON : on_r o (IZR (px p)) (IZR (py p))) by (destruct P as [-> | ->]; [apply on_low|apply on_high]).
      destruct (p_near o _ _ K ON) as [x' [y' [S [W1 W2]]]]. apply on_box in S as [S1 S2].
      assert (M1 : px (s_low s) < px p + 1) by (apply lt_IZR; rewrite plus_IZR; lra). assert (M2 : px p <= px (s_high s)) by (apply le_IZR; lra). split; [lia|].
      unfold Rmin, Rmax in S2. destruct (Rle_dec (IZR (py (s_low s))) (IZR (py (s_high s)))) as [Q|Q].
      - apply le_IZR in Q. assert (py (s_low s) < py p + 1) by (apply lt_IZR; rewrite plus_IZR; lra). assert (py p <= py (s_high s)) by (apply le_IZR; lra). lia.
      - assert (py (s_high s) < py (s_low s)) by (apply lt_IZR; lra). assert (py (s_high s) < py p + 1) by (apply lt_IZR; rewrite plus_IZR; lra). assert (py p <= py (s_low s)) by (apply le_IZR; lra). lia.
    Qed.
    Lemma p_vertical o : In o (pieces i out) -> vertical_edge s = true -> vertical_edge o = true.
    Proof. intros K V. apply vertical_edge_iff in V. apply vertical_edge_iff. pose proof (p_box o _ K (or_introl eq_refl)). pose proof (p_box o _ K (or_intror eq_refl)). lia. Qed.
    Lemma p_mono o : In o (pieces i out) -> px (s_low o) <= px (s_high o).
    Proof.
      intros K. destruct (nth_fst _ _ N) as [s0 [N0 A0]]. destruct (result_main l0 out small OUT) as [hot [w [_ [_ [C _]]]]]. destruct (C i s0 I0 N0) as [W [_ [_ [PI _]]]].
      assert (K' : In (mk_seg (s_low o) (s_high o)) (pieces i out)) by (destruct o; exact K). apply PI in K' as [a [b EW]].
      destruct (w_pair hot s0 (w i) W a _ _ b EW) as [_ [tu [tv CL]]]. assert (O : ordered s) by (apply good, e_in). rewrite A0 in CL. fold s in CL. destruct CL as [T0 [T1 [T2 [_ [_ [[P1 _] [[P2 _] _]]]]]]].
      apply ordered_iff in O. assert (L : (IZR (px (s_low s)) <= IZR (px (s_high s)))%R) by (apply IZR_le; lia). assert (M : (at_x s tu <= at_x s tv)%R) by (unfold at_x; nra).
      assert (px (s_low o) < px (s_high o) + 1) by (apply lt_IZR; rewrite plus_IZR; lra). lia.
    Qed.
  End piece.

  Lemma out_idx e : In e out -> 0 <= snd e < Z.of_nat (length l).
  Proof. intros H. destruct (out_index l0 out small OUT e H) as [A _]. pose proof (f_equal (@length seg) SAME) as LEN. rewrite !map_length in LEN. rewrite LEN in A. exact A. Qed.
  Lemma out_nth e : In e out -> exists s k c, nth_error l (Z.to_nat (snd e)) = Some (s, (k, c)) /\ In (s, (k, c)) l /\ In (fst e) (pieces (snd e) out).
  Proof.
    intros H. pose proof (out_idx e H) as B. destruct (nth_error l (Z.to_nat (snd e))) as [[s [k c]]|] eqn:N; [|apply nth_error_None in N; lia]. exists s, k, c. split; [reflexivity|]. split; [apply (nth_error_In _ _ N)|].
    apply in_pieces. destruct e. exact H.
  Qed.
  Lemma vs_ok : vs_outs l out = Ok pcs.
  Proof.
    unfold pcs. pose proof out_idx as B. clear OUT small good SAME. induction out as [|e os IH]; [reflexivity|]. cbn [vs_outs map]. pose proof (B e (or_introl eq_refl)) as Be. unfold vs_out.
    destruct (snd e <? 0) eqn:Q; [lia|]. destruct (nth_error l (Z.to_nat (snd e))) as [[s [k c]]|] eqn:N; [|apply nth_error_None in N; lia]. cbn [obind]. rewrite IH by (intros f F; apply B; right; exact F). reflexivity.
  Qed.
  Lemma pcs_in t : In t pcs -> exists i s k c o, 0 <= i /\ nth_error l (Z.to_nat i) = Some (s, (k, c)) /\ In o (pieces i out) /\ t = conv s k c o.
  Proof.
    intros H. unfold pcs in H. apply in_map_iff in H as [e [<- H]]. destruct (out_nth e H) as [s [k [c [N [_ P]]]]]. exists (snd e), s, k, c, (fst e). rewrite N. pose proof (out_idx e H). auto with zarith.
  Qed.
  Lemma pcs_noded : noded (map fst pcs).
  Proof.
    pose proof (result_noded l0 out small OUT) as ND.
    assert (SO : forall t, In t (map fst pcs) -> exists o, In o (map fst out) /\ same_seg o t).
    { intros t H. apply in_map_iff in H as [p [<- H]]. apply pcs_in in H as [i [s [k [c [o [I0 [N [P ->]]]]]]]]. exists o. split; [apply in_pieces in P; apply (in_map fst _ _ P)|]. apply conv_same. }
    assert (ON : forall o t x y, same_seg o t -> on_r t x y -> on_r o x y).
    { intros o t x y [-> | ->] H; [exact H|]. destruct H as [u [U [A B]]]. cbn [s_low s_high] in *. exists (1 - u)%R. split; [lra|]. split; lra. }
    assert (EN : forall o t x y, same_seg o t -> end_r o x y -> end_r t x y).
    { intros o t x y [-> | ->] H; [exact H|]. unfold end_r in *. cbn [s_low s_high]. tauto. }
    intros s t x y Hs Ht OS OT. destruct (SO s Hs) as [s' [S1 S2]]. destruct (SO t Ht) as [t' [T1 T2]].
    destruct (ND s' t' x y S1 T1 (ON _ _ _ _ S2 OS) (ON _ _ _ _ T2 OT)) as [[A B]|S].
    - left. split; [apply (EN s'); assumption|apply (EN t'); assumption].
    - right. unfold same_seg in *. destruct S2 as [-> | ->], T2 as [-> | ->], S as [-> | ->]; cbn [s_low s_high]; auto; destruct s'; auto.
  Qed.
  Lemma pcs_good e : In e pcs -> ordered (fst e) /\ fits (fst e) /\ INT_MIN < px (s_low (fst e)).
  Proof.
    intros H. apply pcs_in in H as [i [s [k [c [o [I0 [N [P ->]]]]]]]]. pose proof (nth_error_In _ _ N) as In_s. destruct (good _ In_s) as [O [Fi MI]]. cbn [fst] in O, Fi, MI.
    split; [apply conv_ordered; exact (p_ne i _ I0 N o P)|].
    assert (BX : forall p, p = s_low o \/ p = s_high o -> px (s_low s) <= px p <= px (s_high s) /\ Z.min (py (s_low s)) (py (s_high s)) <= py p <= Z.max (py (s_low s)) (py (s_high s))) by (intros p Hp; apply (p_box i _ I0 N o p P Hp)).
    pose proof (BX _ (or_introl eq_refl)) as B1. pose proof (BX _ (or_intror eq_refl)) as B2. clear BX.
    assert (BT : forall p, p = s_low (fst (conv s k c o)) \/ p = s_high (fst (conv s k c o)) -> p = s_low o \/ p = s_high o) by (intros p Hp; destruct (conv_same s k c o) as [E|E]; rewrite E in Hp; cbn [s_low s_high] in Hp; tauto).
    destruct (BT _ (or_introl eq_refl)) as [L1|L1], (BT _ (or_intror eq_refl)) as [L2|L2]; unfold fits, coord_fits in *; rewrite L1, L2; (split; [lia|lia]).
  Qed.
  Lemma pcs_ids e : In e pcs -> exists f, In f l /\ fst (snd e) = fst (snd f).
  Proof. intros H. apply pcs_in in H as [i [s [k [c [o [I0 [N [P ->]]]]]]]]. exists (s, (k, c)). split; [apply (nth_error_In _ _ N)|reflexivity]. Qed.

  (* sums over the pieces *)
  Lemma pcs_tot (f : vprop -> Z) : tot f pcs = tot (fun p => tot (fun o => f (conv (fst (fst p)) (fst (snd (fst p))) (snd (snd (fst p))) o)) (pieces (snd p) out)) (idx 0 l).
  Proof.
    unfold pcs. rewrite tot_map. rewrite (group l out _ out_idx). apply tot_ext. intros [[s [k c]] i] H. apply idx_in in H as [I0 N]. rewrite Z.sub_0_r in N. cbn [fst snd]. unfold pieces. rewrite tot_map. apply tot_ext.
    intros e He. apply filter_In in He as [_ Q]. apply Z.eqb_eq in Q. rewrite Q, N. reflexivity.
  Qed.
  Lemma pcs_closed : closed l -> closed pcs.
  Proof.
    intros clo k v. apply Z.sub_move_0_r. rewrite <- tot_sub, pcs_tot.
    rewrite (tot_ext _ (fun p : vprop * Z => (fun e => (b01 (eq_pt (s_low (fst e)) v) - b01 (eq_pt (s_high (fst e)) v)) * along k e) (fst p))).
    - rewrite (idx_tot (fun e : vprop => (b01 (eq_pt (s_low (fst e)) v) - b01 (eq_pt (s_high (fst e)) v)) * along k e)). pose proof (clo k v) as C. apply Z.sub_move_0_r in C. rewrite <- tot_sub in C. rewrite <- C. apply tot_ext.
      intros e _. destruct (eq_pt (s_low (fst e)) v), (eq_pt (s_high (fst e)) v); cbn [b01]; lia.
    - intros [[s [k0 c]] i] H. apply idx_in in H as [I0 N]. rewrite Z.sub_0_r in N. cbn [fst snd]. pose proof (nth_error_In _ _ N) as In_s. destruct (good _ In_s) as [O _]. cbn [fst] in O.
      pose proof (path_ends v _ _ _ (proj1 (p_path i _ I0 N))) as PE. cbn [fst] in PE. rewrite <- PE, <- tot_scale. apply tot_ext. intros o P. apply conv_along; [exact O|apply (p_ne i _ I0 N o P)|intros V; apply (p_vertical i _ I0 N o P V)].
  Qed.

  (* the depth, where the pieces are on the same side as the edges *)
  Lemma pcs_depth (left : bool) x (p : R -> bool) k : let sp := if left then spans_l else spans_r in
    (forall i e o, 0 <= i -> nth_error l (Z.to_nat i) = Some e -> In o (pieces i out) -> sp o x = true -> sp (fst e) x = true -> fst (snd e) = k -> p (height o x) = p (height (fst e) x)) ->
    tot (fun e => if sp (fst e) x && p (height (fst e) x) then wt k e else 0) pcs = tot (fun e => if sp (fst e) x && p (height (fst e) x) then wt k e else 0) l.
  Proof.
    intros sp H. rewrite pcs_tot.
    rewrite (tot_ext _ (fun q : vprop * Z => (fun e => if sp (fst e) x && p (height (fst e) x) then wt k e else 0) (fst q))).
    { apply (idx_tot (fun e : vprop => if sp (fst e) x && p (height (fst e) x) then wt k e else 0)). }
    intros [[s [k0 c]] i] K. apply idx_in in K as [I0 N]. rewrite Z.sub_0_r in N. cbn [fst snd]. pose proof (nth_error_In _ _ N) as In_s. destruct (good _ In_s) as [O _]. cbn [fst] in O.
    set (g := fun q => if left then rltb (IZR (px q)) x else rleb (IZR (px q)) x).
    assert (SI : forall o, px (s_low o) <= px (s_high o) -> b01 (sp o x) = b01 (g (s_low o)) - b01 (g (s_high o))).
    { intros o M. unfold sp, g. destruct left; [apply spans_l_ind, M|apply spans_r_ind, M]. }
    assert (SV : forall o, vertical_edge o = true -> sp o x = false).
    { intros o V. apply vertical_edge_iff in V. assert (M : px (s_low o) <= px (s_high o)) by lia. pose proof (SI o M) as Q. unfold g in Q. rewrite V in Q. destruct (sp o x); [cbn [b01] in Q; lia|reflexivity]. }
    assert (CN : forall o, In o (pieces i out) -> (if sp (fst (conv s k0 c o)) x && p (height (fst (conv s k0 c o)) x) then wt k (conv s k0 c o) else 0) = if sp o x && p (height o x) then wt k (s, (k0, c)) else 0).
    { intros o P. destruct (vertical_edge o) eqn:V.
      - rewrite (SV o V). assert (VC : vertical_edge (fst (conv s k0 c o)) = true) by (apply vertical_edge_iff; apply vertical_edge_iff in V; destruct (conv_same s k0 c o) as [E|E]; rewrite E; [exact V|cbn [s_low s_high]; symmetry; exact V]). rewrite (SV _ VC). reflexivity.
      - rewrite conv_nv; [reflexivity|exact O|apply (p_ne i _ I0 N o P)|intros Vs; apply (p_vertical i _ I0 N o P Vs)|apply (p_mono i _ I0 N o P)|exact V]. }
    rewrite (tot_ext _ (fun o => if sp o x && p (height o x) then wt k (s, (k0, c)) else 0)) by exact CN.
    assert (SUM : tot (fun o => b01 (sp o x)) (pieces i out) = b01 (sp s x)).
    { rewrite (path_spans (fun o => sp o x) g _ _ _ (proj1 (p_path i _ I0 N))); [symmetry; apply SI; apply ordered_iff in O; cbn [fst]; lia|]. intros o P. apply SI, (p_mono i _ I0 N o P). }
    destruct (sp s x) eqn:Ss; cbn [andb].
    - rewrite (tot_ext _ (fun o => b01 (sp o x) * (if p (height s x) then wt k (s, (k0, c)) else 0))); [rewrite tot_scale, SUM; cbn [b01]; lia|].
      intros o P. destruct (sp o x) eqn:So; cbn [andb b01]; [|lia]. unfold wt. cbn [fst snd]. destruct (k0 =? k) eqn:QK; [|destruct (p (height o x)), (p (height s x)); lia]. apply Z.eqb_eq in QK. rewrite (H i _ o I0 N P So Ss QK). cbn [fst]. lia.
    - apply tot_zero. intros o P. assert (sp o x = false) as ->; [|reflexivity]. clear - SUM P. cbn [b01] in SUM. revert SUM P. assert (G : forall ts, 0 <= tot (fun o => b01 (sp o x)) ts) by (induction ts as [|t ts IH]; cbn [tot]; [lia|]; unfold b01 in *; destruct (sp t x); lia).
      induction (pieces i out) as [|t ts IH]; intros SUM P; [destruct P|]. cbn [tot] in SUM. pose proof (G ts) as GT. destruct P as [<-|P]; [destruct (sp t x); [cbn [b01] in SUM; lia|reflexivity]|]. apply IH; [|exact P]. unfold b01 in *. destruct (sp t x); lia.
  Qed.

  (* no point of the edges in the open square of side length 2 around the point *)
  Definition clear_at (x y : R) : Prop := forall e x' y', In e l -> on_r (fst e) x' y' -> ~ (Rabs (x' - x) < 1 /\ Rabs (y' - y) < 1)%R.
  Lemma height_mid s a b y : (height s a <= y <= height s b)%R \/ (height s b <= y <= height s a)%R -> (a <= b)%R -> exists c, (a <= c <= b)%R /\ height s c = y.
  Proof.
    intros H AB. destruct (Req_dec (height s a) (height s b)) as [E|E]; [exists a; lra|].
    set (t := ((y - height s a) / (height s b - height s a))%R).
    assert (T : (t * (height s b - height s a) = y - height s a)%R) by (unfold t; field; lra).
    assert (T01 : (0 <= t <= 1)%R). { destruct H as [H|H]; [assert (0 < height s b - height s a)%R by lra|assert (height s b - height s a < 0)%R by lra]; split; nra. }
    exists (a + t * (b - a))%R. split; [split; nra|]. rewrite height_between. lra.
  Qed.
  Definition clear_of (s : seg) (x y : R) : Prop := forall x' y', on_r s x' y' -> ~ (Rabs (x' - x) < 1 /\ Rabs (y' - y) < 1)%R.
  Lemma clear_side i e o x y : clear_of (fst e) x y -> 0 <= i -> nth_error l (Z.to_nat i) = Some e -> In o (pieces i out) -> spans_r o x = true -> spans_r (fst e) x = true ->
    rltb (height o x) y = rltb (height (fst e) x) y.
  Proof.
    intros C I0 N P So Ss. apply spans_r_iff in So, Ss. pose proof (nth_error_In _ _ N) as He.
    assert (NVs : px (s_low (fst e)) < px (s_high (fst e))) by (apply lt_IZR; lra). assert (NVo : px (s_low o) < px (s_high o)) by (apply lt_IZR; lra).
    assert (ON : on_r o x (height o x)) by (apply on_height; [exact NVo|unfold inc; lra]).
    destruct (p_near i e I0 N o _ _ P ON) as [x' [y' [S [W1 W2]]]]. pose proof S as S'. apply (on_height_inv _ _ _ NVs) in S' as [I' ->].
    assert (XX : (x <= x' < x + 1)%R) by lra.
    assert (NO : forall z w, (x <= z <= x')%R -> height (fst e) z = w -> (y - 1 < w < y + 1)%R -> False).
    { intros z w Z W B. apply (C z w); [subst w; apply on_height; [exact NVs|unfold inc in *; lra]|]. split; apply Rabs_def1; lra. }
    apply ArbSums.bool_eq. rewrite !rltb_iff. split; intros H.
    - apply Rnot_le_lt. intros K. destruct (Rlt_dec (height (fst e) x') y) as [L|L].
      + destruct (height_mid (fst e) x x' y) as [c [C1 C2]]; [lra|lra|]. apply (NO c y C1 C2). lra.
      + apply (NO x' (height (fst e) x')); [lra|reflexivity|lra].
    - apply Rnot_le_lt. intros K. destruct (height_mid (fst e) x x' y) as [c [C1 C2]]; [lra|lra|]. apply (NO c y C1 C2). lra.
  Qed.
  Lemma clear_depth x y k : clear_at x y -> depth_below pcs k x y = depth_below l k x y.
  Proof. intros C. apply (pcs_depth false x (fun z => rltb z y) k). intros i e o I0 N P So Ss _. apply (clear_side i e o x y (fun x' y' => C e x' y' (nth_error_In _ _ N)) I0 N P So Ss). Qed.
  (* only the edges of the property matter *)
  Lemma clear_depth_of x y k : (forall e, In e l -> fst (snd e) = k -> clear_of (fst e) x y) -> depth_below pcs k x y = depth_below l k x y.
  Proof. intros C. apply (pcs_depth false x (fun z => rltb z y) k). intros i e o I0 N P So Ss K. apply (clear_side i e o x y (C e (nth_error_In _ _ N) K) I0 N P So Ss). Qed.
  (* the depth everywhere, if all edges are horizontal or vertical *)
  Lemma axis_height i e o x : (px (s_low (fst e)) = px (s_high (fst e)) \/ py (s_low (fst e)) = py (s_high (fst e))) -> 0 <= i -> nth_error l (Z.to_nat i) = Some e -> In o (pieces i out) ->
    px (s_low o) < px (s_high o) -> inc o x -> height o x = height (fst e) x.
  Proof.
    intros A I0 N P NV I. pose proof (on_height o x NV I) as ON. pose proof (nth_error_In _ _ N) as He. assert (NVs : px (s_low (fst e)) < px (s_high (fst e))).
    { pose proof (p_box i e I0 N o _ P (or_introl eq_refl)). pose proof (p_box i e I0 N o _ P (or_intror eq_refl)). lia. }
    pose proof (p_axis i e I0 N o _ _ A P ON) as S. apply (on_height_inv _ _ _ NVs) in S as [_ ->]. reflexivity.
  Qed.
  Lemma axis_depth : (forall e, In e l -> px (s_low (fst e)) = px (s_high (fst e)) \/ py (s_low (fst e)) = py (s_high (fst e))) ->
    forall x y k, depth_below pcs k x y = depth_below l k x y /\ depth_above pcs k x y = depth_above l k x y /\ depth_below_left pcs k x y = depth_below_left l k x y.
  Proof.
    intros A x y k. split; [|split].
    - apply (pcs_depth false x (fun z => rltb z y) k). intros i e o I0 N P So Ss _. apply spans_r_iff in So. rewrite (axis_height i e o x (A e (nth_error_In _ _ N)) I0 N P); [reflexivity|apply lt_IZR; lra|unfold inc; lra].
    - apply (pcs_depth false x (fun z => rleb z y) k). intros i e o I0 N P So Ss _. apply spans_r_iff in So. rewrite (axis_height i e o x (A e (nth_error_In _ _ N)) I0 N P); [reflexivity|apply lt_IZR; lra|unfold inc; lra].
    - apply (pcs_depth true x (fun z => rltb z y) k). intros i e o I0 N P So Ss _. apply spans_l_iff in So. rewrite (axis_height i e o x (A e (nth_error_In _ _ N)) I0 N P); [reflexivity|apply lt_IZR; lra|unfold inc; lra].
  Qed.
  Lemma pcs_near t x y : In t (map fst pcs) -> on_r t x y -> exists e x' y', In e l /\ on_r (fst e) x' y' /\ within x y x' y'.
  Proof.
    intros H ON. apply in_map_iff in H as [p [<- H]]. apply pcs_in in H as [i [s [k [c [o [I0 [N [P ->]]]]]]]].
    assert (ON' : on_r o x y). { destruct (conv_same s k c o) as [E|E]; rewrite E in ON; [exact ON|]. destruct ON as [u [U [A B]]]. cbn [s_low s_high] in *. exists (1 - u)%R. split; [lra|]. split; lra. }
    destruct (p_near i _ I0 N o x y P ON') as [x' [y' [S W]]]. exists (s, (k, c)), x', y'. split; [apply (nth_error_In _ _ N)|]. auto.
  Qed.
End snap.
