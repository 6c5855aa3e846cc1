(* The division into bins: every end point and every intersection that was
   found is tested against every segment. *)
From Verif Require Import Base Units Outcome Scan90Spec Poly90Spec Poly90Model Poly90Proofs.
From Verif Require Import Set90Spec Set90Model GeoSpec IvlModel IvlProofs RectModel RectProofs SegModel SegProofs PolySpec PolyModel PolyEdge ScanBaseModel ScanBaseOab.
From Verif Require Import SnapMove SnapNode SnapModel SnapChain ScanBaseProofs ScanBaseGrid ScanBaseCross SnapLoops.
From Coq Require Import Reals Lra Psatz Sorting.Sorted Arith.
Local Open Scope Z_scope.

(* ---------- half edges in order ---------- *)
Lemma he_order_id e : snd (he_order e) = snd e.
Proof. unfold he_order. destruct (pt_less _ _); reflexivity. Qed.
Lemma he_order_ordered e : ordered (fst (he_order e)).
Proof. unfold he_order, ordered. destruct (pt_less (s_high (fst e)) (s_low (fst e))) eqn:E; cbn [fst s_low s_high]; [apply pt_less_asym; exact E|exact E]. Qed.
Lemma he_order_cases e : he_order e = e \/ he_order e = (mk_seg (s_high (fst e)) (s_low (fst e)), snd e).
Proof. unfold he_order. destruct (pt_less _ _); auto. Qed.
Lemma he_order_twice e : he_order (he_order e) = he_order e.
Proof. pose proof (he_order_ordered e) as O. unfold ordered in O. unfold he_order at 1. rewrite O. reflexivity. Qed.
Lemma he_order_small e : seg_small (fst e) -> seg_small (fst (he_order e)).
Proof.
  intros S. destruct (he_order_cases e) as [-> | ->]; [exact S|]. unfold seg_small in *. cbn [fst s_low s_high]. destruct S as [A [B [C D]]]. repeat split; try apply A; try apply B; lia.
Qed.
Lemma he_order_ron e x y : ron (s_low (fst (he_order e))) (s_high (fst (he_order e))) x y <-> ron (s_low (fst e)) (s_high (fst e)) x y.
Proof. destruct (he_order_cases e) as [-> | ->]; [reflexivity|]. cbn [fst s_low s_high]. split; apply ron_swap. Qed.
Lemma he_order_passes e p : passes (fst (he_order e)) p <-> passes (fst e) p.
Proof. unfold passes. split; intros [x [y [A B]]]; exists x, y; (split; [apply he_order_ron; exact A|exact B]). Qed.
Lemma he_order_in_bin keys j e : in_bin keys j (he_order e) = in_bin keys j e.
Proof. destruct (he_order_cases e) as [-> | ->]; [reflexivity|]. unfold in_bin. cbn [fst s_low s_high]. rewrite (Z.min_comm (py (s_high (fst e)))), (Z.max_comm (py (s_high (fst e)))). reflexivity. Qed.
Lemma entry_sorted l : StronglySorted low_le (sorted entry_less l).
Proof.
  assert (LQ : forall a b, entry_less a b = true -> low_le a b).
  { intros [s i] [t j]. unfold entry_less, seg_pair_less, low_le, pt_less. cbn [fst snd]. lia. }
  apply sorted_sorted; [exact LQ| |unfold low_le; intros; lia].
  intros [s i] [t j]. unfold entry_less, seg_pair_less, low_le, pt_less. cbn [fst snd]. lia.
Qed.

(* ---------- one bin ---------- *)
Section bin.
  Variable G : list entry.
  Hypothesis GG : good G.
  Lemma bin_spec c bin ips : (forall e, In e bin -> In (he_order e) G) -> sound G ips -> sets_sorted ips ->
    exists ips', vs_bin c bin ips = Ok ips' /\ sound G ips' /\ sets_sorted ips' /\ grow ips ips' /\
      (forall i p, In p (ips' i) -> In p (ips i) \/ an_end (map he_order bin) p \/ c <= py p) /\
      (forall p, an_end (map he_order bin) p \/ (exists e, In e bin /\ In p (ips' (snd e)) /\ c <= py p) -> forall e, In e bin -> passes (fst e) p -> In p (ips' (snd e))) /\
      (forall e e', In e (map he_order bin) -> In e' (map he_order bin) -> ys_from c (fst e) || ys_from c (fst e') = true -> found ips' (fst e) (snd e) (fst e') (snd e')).
  Proof.
    intros I S K. unfold vs_bin. set (data := sorted entry_less (map he_order bin)).
    assert (IN : forall e, In e data <-> In e (map he_order bin)) by (intros e; apply sorted_in).
    assert (ID : incl data G) by (intros e E; apply IN in E; apply in_map_iff in E as [e0 [<- E]]; apply I; exact E).
    assert (SO : StronglySorted low_le data) by apply entry_sorted.
    assert (AE : forall p, an_end data p <-> an_end (map he_order bin) p) by (intros p; split; intros [e [X Y]]; exists e; (split; [apply IN; exact X|exact Y])).
    destruct (outer_spec G GG c data [] ips ID SO S K) as [pts [ips1 [E1 [S1 [K1 [G1 [_ [OR1 [PO1 [AE1 [PU1 F1]]]]]]]]]]].
    rewrite E1. cbn [obind]. cbv iota beta. set (l := unique_pts (sorted pt_less pts)).
    assert (IL : forall p, In p l <-> In p pts) by (intros p; unfold l; rewrite unique_in; apply sorted_in).
    assert (SL : forall p, In p l -> small_pt p /\ origin G p).
    { intros p P. apply IL, PO1 in P. destruct P as [[]|[[[s i] [X Y]]|[P [P' _]]]]; [|split; assumption]. pose proof (small_of G GG s i (ID _ X)) as [A [B _]]. split; [|left; exists (s, i); split; [apply ID; exact X|exact Y]]. cbn [fst] in Y. destruct Y as [-> | ->]; assumption. }
    destruct (points_spec G GG data l ips1 ID SO (pts_sorted pts) SL S1 K1) as [ips' [E2 [S2 [K2 [G2 [OR2 F2]]]]]].
    exists ips'. split; [exact E2|]. split; [exact S2|]. split; [exact K2|]. split; [apply (grow_trans _ ips1); assumption|].
    split.
    { intros i p P. apply OR2 in P. destruct P as [P|P].
      - apply OR1 in P. destruct P as [P|P]; [auto|]. apply PO1 in P. destruct P as [[]|[P|[_ [_ P]]]]; [right; left; apply AE; exact P|auto].
      - apply IL, PO1 in P. destruct P as [[]|[P|[_ [_ P]]]]; [right; left; apply AE; exact P|auto]. }
    split.
    { intros p C e X P.
      assert (PL : In p l).
      { apply IL. destruct C as [C|[e0 [X0 [P0 Y0]]]]; [apply AE1, AE; exact C|]. apply OR2 in P0. destruct P0 as [P0|P0]; [|apply IL; exact P0].
        apply OR1 in P0. destruct P0 as [P0|P0]; [|exact P0]. apply (PU1 (he_order e0)); [apply IN; apply in_map; exact X0|rewrite he_order_id; exact P0|exact Y0]. }
      rewrite <- he_order_id. apply (F2 (fst (he_order e))); [rewrite <- surjective_pairing; apply IN; apply in_map; exact X|exact PL|apply he_order_passes; exact P]. }
    intros e e' X X' Y. apply (found_grow ips1); [exact G2|]. apply F1; [apply IN; exact X|apply IN; exact X'|exact Y].
  Qed.
End bin.

(* ---------- the keys ---------- *)
Lemma count_mono (f g : Z -> bool) l : (forall k, f k = true -> g k = true) -> (length (filter f l) <= length (filter g l))%nat.
Proof.
  intros I. induction l as [|k l IH]; [apply le_n|]. cbn [filter]. destruct (f k) eqn:E; [rewrite (I k E); cbn [length]; lia|]. destruct (g k); cbn [length]; lia.
Qed.
(* the bin of a y coordinate *)
Definition bin_of (keys : list Z) (y : Z) : nat := Nat.pred (upper_bound keys y).
Lemma in_bin_of k0 cuts e y : k0 <= y -> Z.min (py (s_low (fst e))) (py (s_high (fst e))) <= y <= Z.max (py (s_low (fst e))) (py (s_high (fst e))) ->
  in_bin (k0 :: cuts) (bin_of (k0 :: cuts) y) e = true.
Proof.
  intros K Y. set (keys := k0 :: cuts). unfold in_bin.
  assert (U : (1 <= upper_bound keys y)%nat) by (unfold upper_bound, keys; cbn [filter]; rewrite (proj2 (Z.leb_le k0 y) K); cbn [length]; lia).
  assert (L : (lower_bound keys (Z.min (py (s_low (fst e))) (py (s_high (fst e)))) <= upper_bound keys y)%nat) by (apply count_mono; intros k X; apply Z.ltb_lt in X; apply Z.leb_le; lia).
  assert (M : (upper_bound keys y <= upper_bound keys (Z.max (py (s_low (fst e))) (py (s_high (fst e)))))%nat) by (apply count_mono; intros k X; apply Z.leb_le in X; apply Z.leb_le; lia).
  unfold bin_of. apply andb_true_iff. split; [apply Nat.leb_le|apply Nat.ltb_lt]; lia.
Qed.
Lemma upper_le keys y : (upper_bound keys y <= length keys)%nat.
Proof. unfold upper_bound. induction keys as [|k l IH]; [apply le_n|]. cbn [filter]. destruct (k <=? y); cbn [length]; lia. Qed.
Lemma upper_nth keys y : StronglySorted Z.lt keys -> forall j k, nth_error keys j = Some k -> (k <= y <-> (j < upper_bound keys y)%nat).
Proof.
  unfold upper_bound. induction keys as [|k0 l IH]; intros S j k N; [destruct j; discriminate|]. apply StronglySorted_inv in S as [S F]. cbn [filter].
  destruct j as [|j]; cbn [nth_error] in N.
  - assert (k0 = k) by congruence. subst k0. destruct (Z.leb_spec k y) as [L|L]; cbn [length]; [lia|]. split; [lia|]. intros X. exfalso.
    assert (E : filter (fun k1 => k1 <=? y) l = []).
    { clear - F L. induction F as [|q l Q F IH]; [reflexivity|]. cbn [filter]. destruct (Z.leb_spec q y); [lia|exact IH]. }
    rewrite E in X. cbn in X. lia.
  - specialize (IH S j k N). rewrite Forall_forall in F. pose proof (F k (nth_error_In _ _ N)). destruct (Z.leb_spec k0 y) as [L|L]; cbn [length]; [rewrite IH; lia|].
    split; [lia|]. intros X. apply IH. lia.
Qed.
Lemma key_of_bin keys y j k : StronglySorted Z.lt keys -> nth_error keys j = Some k -> bin_of keys y = j -> (1 <= upper_bound keys y)%nat -> k <= y.
Proof. intros S N B U. apply (upper_nth keys y S j k N). unfold bin_of in B. lia. Qed.
Lemma bin_below keys y j k : StronglySorted Z.lt keys -> nth_error keys j = Some k -> (bin_of keys y < j)%nat -> y < k.
Proof. intros S N B. pose proof (upper_nth keys y S j k N). unfold bin_of in B. destruct (Z_lt_le_dec y k) as [L|L]; [exact L|]. apply H in L. lia. Qed.

(* ---------- all bins ---------- *)
Section bins.
  Variables (data : list entry) (k0 : Z) (cuts : list Z).
  Hypothesis small : forall e, In e data -> seg_small (fst e).
  Hypothesis uniq : forall e e', In e data -> In e' data -> snd e = snd e' -> e = e'.
  Hypothesis keys_sorted : StronglySorted Z.lt (k0 :: cuts).
  Hypothesis lowest : forall e, In e data -> k0 <= Z.min (py (s_low (fst e))) (py (s_high (fst e))).
  Let keys := k0 :: cuts.
  Let G := map he_order data.
  Lemma G_good : good G.
  Proof.
    split.
    - intros s i X. apply in_map_iff in X as [e [E X]]. assert (s = fst (he_order e)) by (rewrite E; reflexivity). subst s. split; [apply he_order_small, small, X|apply he_order_ordered].
    - intros s t i X Y. apply in_map_iff in X as [e [E X]]. apply in_map_iff in Y as [e' [E' Y]]. assert (e = e') by (apply uniq; [exact X|exact Y|]; rewrite <- (he_order_id e), <- (he_order_id e'), E, E'; reflexivity). subst. congruence.
  Qed.
  Lemma passes_low e p : In e data -> passes (fst e) p -> k0 <= py p.
  Proof. intros X P. pose proof (lowest e X). apply passes_box in P. destruct P as [_ P]. lia. Qed.
  (* the bins before j are done *)
  Definition done (j : nat) (ips : ptsets) : Prop :=
    sound G ips /\ sets_sorted ips /\
    (forall p, (bin_of keys (py p) < j)%nat -> an_end data p \/ (exists e, In e data /\ In p (ips (snd e))) -> forall e, In e data -> passes (fst e) p -> In p (ips (snd e))) /\
    (forall e e', In e G -> In e' G -> (bin_of keys (Z.max (Z.min (py (s_low (fst e))) (py (s_high (fst e)))) (Z.min (py (s_low (fst e'))) (py (s_high (fst e'))))) < j)%nat -> found ips (fst e) (snd e) (fst e') (snd e')).
  Lemma an_end_he D p : an_end (map he_order D) p <-> an_end D p.
  Proof.
    split.
    - intros [e [X Y]]. apply in_map_iff in X as [e0 [<- X]]. exists e0. split; [exact X|]. destruct (he_order_cases e0) as [E|E]; rewrite E in Y; cbn [fst s_low s_high] in Y; tauto.
    - intros [e [X Y]]. exists (he_order e). split; [apply in_map; exact X|]. destruct (he_order_cases e) as [E|E]; rewrite E; cbn [fst s_low s_high]; tauto.
  Qed.
  Lemma end_passes (e : entry) p : p = s_low (fst e) \/ p = s_high (fst e) -> passes (fst e) p.
  Proof. intros [-> | ->]; apply passes_pt; [apply ron_low|apply ron_high]. Qed.
  Lemma bin_step c j ips : (c = INT_MIN /\ j = 0%nat \/ nth_error keys j = Some c) -> done j ips ->
    exists ips', vs_bin c (filter (in_bin keys j) data) ips = Ok ips' /\ done (S j) ips'.
  Proof.
    intros CJ [S [K [CL FO]]]. set (bin := filter (in_bin keys j) data).
    destruct (bin_spec G G_good c bin ips) as [ips' [E [S' [K' [GR [OR [CL' FO']]]]]]].
    { intros e X. apply in_map. apply filter_In in X. apply X. }
    { exact S. }
    { exact K. }
    exists ips'. split; [exact E|]. split; [exact S'|]. split; [exact K'|].
    assert (INB : forall e y, In e data -> Z.min (py (s_low (fst e))) (py (s_high (fst e))) <= y <= Z.max (py (s_low (fst e))) (py (s_high (fst e))) -> bin_of keys y = j -> In e bin).
    { intros e y X Y B. apply filter_In. split; [exact X|]. rewrite <- B. apply in_bin_of; [|exact Y]. pose proof (lowest e X). lia. }
    assert (SOUND : forall e p, In e data -> In p (ips' (snd e)) -> passes (fst e) p).
    { intros e p X P. apply he_order_passes. apply (S' (fst (he_order e)) (snd e)); [rewrite <- (he_order_id e), <- surjective_pairing; apply in_map; exact X|exact P]. }
    assert (CY : forall y, INT_MIN <= y -> k0 <= y -> bin_of keys y = j -> c <= y).
    { intros y Y1 Y2 B. destruct CJ as [[-> _]|CJ]; [exact Y1|]. apply (key_of_bin keys y j c keys_sorted CJ B).
      unfold upper_bound, keys. cbn [filter]. rewrite (proj2 (Z.leb_le k0 y) Y2). cbn [length]. lia. }
    assert (SMALL : forall e y, In e data -> Z.min (py (s_low (fst e))) (py (s_high (fst e))) <= y -> INT_MIN <= y).
    { intros e y X Y. destruct (small e X) as [A [B _]]. unfold small_pt in A, B. lia. }
    split.
    - intros p B C e X P.
      destruct (Nat.eq_dec (bin_of keys (py p)) j) as [BJ|BJ].
      + pose proof (passes_box _ _ P) as [_ PY]. assert (XB : In e bin) by (apply (INB e (py p)); assumption).
        apply CL'; [|exact XB|exact P]. destruct C as [[e0 [X0 Y0]]|[e0 [X0 P0]]].
        * left. apply (proj2 (an_end_he _ _)). exists e0. split; [|exact Y0]. apply (INB e0 (py p)); [exact X0| |exact BJ]. pose proof (passes_box _ _ (end_passes e0 p Y0)) as [_ B0]. exact B0.
        * right. pose proof (SOUND e0 p X0 P0) as PA. pose proof (passes_box _ _ PA) as [_ B0]. exists e0. split; [apply (INB e0 (py p)); assumption|]. split; [exact P0|].
          apply CY; [apply (SMALL e0); [exact X0|apply B0]|apply (passes_low e0); assumption|exact BJ].
      + assert (BL : (bin_of keys (py p) < j)%nat) by lia. apply GR. apply CL; [exact BL| |exact X|exact P].
        destruct C as [C|[e0 [X0 P0]]]; [left; exact C|]. apply OR in P0. destruct P0 as [P0|[P0|P0]].
        * right. exists e0. auto.
        * left. apply (proj1 (an_end_he _ _)) in P0. destruct P0 as [e1 [X1 Y1]]. exists e1. split; [apply filter_In in X1; apply X1|exact Y1].
        * exfalso. destruct CJ as [[_ ->]|CJ]; [lia|]. pose proof (bin_below keys (py p) j c keys_sorted CJ BL). lia.
    - intros e e' X X' B. set (y := Z.max (Z.min (py (s_low (fst e))) (py (s_high (fst e)))) (Z.min (py (s_low (fst e'))) (py (s_high (fst e'))))) in *.
      destruct (Nat.eq_dec (bin_of keys y) j) as [BJ|BJ]; [|apply (found_grow ips); [exact GR|apply FO; [exact X|exact X'|fold y; lia]]].
      intros x0 y0 N C E1 E2.
      (* both reach the bin *)
      destruct C as [C1 C2]. pose proof (ron_box _ _ _ _ C1) as [_ B1]. pose proof (ron_box _ _ _ _ C2) as [_ B2]. rewrite Rmin_IZR, Rmax_IZR in B1, B2.
      assert (Y1 : Z.min (py (s_low (fst e))) (py (s_high (fst e))) <= y <= Z.max (py (s_low (fst e))) (py (s_high (fst e)))).
      { assert (Z.min (py (s_low (fst e'))) (py (s_high (fst e'))) <= Z.max (py (s_low (fst e))) (py (s_high (fst e)))) by (apply le_IZR; lra). unfold y. lia. }
      assert (Y2 : Z.min (py (s_low (fst e'))) (py (s_high (fst e'))) <= y <= Z.max (py (s_low (fst e'))) (py (s_high (fst e')))).
      { assert (Z.min (py (s_low (fst e))) (py (s_high (fst e))) <= Z.max (py (s_low (fst e'))) (py (s_high (fst e')))) by (apply le_IZR; lra). unfold y. lia. }
      assert (BIN : forall e, In e G -> Z.min (py (s_low (fst e))) (py (s_high (fst e))) <= y <= Z.max (py (s_low (fst e))) (py (s_high (fst e))) -> In e (map he_order bin) /\ k0 <= y /\ INT_MIN <= y).
      { intros e1 X1 Y. apply in_map_iff in X1 as [e0 [<- X1]].
        assert (Y0 : Z.min (py (s_low (fst e0))) (py (s_high (fst e0))) <= y <= Z.max (py (s_low (fst e0))) (py (s_high (fst e0)))) by (destruct (he_order_cases e0) as [H|H]; rewrite H in Y; cbn [fst s_low s_high] in Y; lia).
        split; [apply in_map; apply (INB e0 y); assumption|]. split; [pose proof (lowest e0 X1); lia|apply (SMALL e0); [exact X1|apply Y0]]. }
      destruct (BIN e X Y1) as [Z1 [Z2 Z3]]. destruct (BIN e' X' Y2) as [Z1' _]. pose proof (CY y Z3 Z2 BJ) as CC.
      apply FO'; [exact Z1|exact Z1'| |exact N|split; assumption|exact E1|exact E2].
      apply orb_true_iff. unfold ys_from. rewrite !andb_true_iff, !Z.geb_le. unfold y in CC. lia.
  Qed.
  Lemma bins_spec : forall rest j ips, (forall m k, nth_error rest m = Some k -> nth_error keys (j + m) = Some k) -> done j ips ->
    exists ips', vs_bins keys data j rest ips = Ok ips' /\ done (j + length rest) ips'.
  Proof.
    induction rest as [|c rest IH]; intros j ips N D; cbn [vs_bins].
    - exists ips. split; [reflexivity|]. cbn [length]. rewrite Nat.add_0_r. exact D.
    - destruct (bin_step c j ips) as [ips1 [E D1]]; [right; rewrite <- (Nat.add_0_r j); apply N; reflexivity|exact D|]. rewrite E. cbn [obind].
      destruct (IH (S j) ips1) as [ips' [E' D']]; [intros m k M; replace (S j + m)%nat with (j + S m)%nat by lia; apply N; exact M|exact D1|].
      exists ips'. split; [exact E'|]. cbn [length]. rewrite <- Nat.add_succ_comm. exact D'.
  Qed.
  Lemma all_bins : exists ips', obind (vs_bin INT_MIN (filter (in_bin keys 0) data) (fun _ => [])) (fun ips1 => vs_bins keys data 1 cuts ips1) = Ok ips' /\
    sound G ips' /\ sets_sorted ips' /\
    (forall p, an_end data p \/ (exists e, In e data /\ In p (ips' (snd e))) -> forall e, In e data -> passes (fst e) p -> In p (ips' (snd e))) /\
    (forall e e', In e G -> In e' G -> found ips' (fst e) (snd e) (fst e') (snd e')).
  Proof.
    assert (D0 : done 0 (fun _ => [])).
    { split; [intros s i p _ []|]. split; [intros i; constructor|]. split; [intros p B; lia|intros e e' _ _ B; lia]. }
    destruct (bin_step INT_MIN 0 (fun _ => []) (or_introl (conj eq_refl eq_refl)) D0) as [ips1 [E1 D1]]. rewrite E1. cbn [obind].
    destruct (bins_spec cuts 1 ips1) as [ips' [E [S [K [CL FO]]]]]; [intros m k M; exact M|exact D1|].
    exists ips'. split; [exact E|]. split; [exact S|]. split; [exact K|].
    assert (B : forall y, (bin_of keys y < 1 + length cuts)%nat) by (intros y; pose proof (upper_le keys y); unfold bin_of, keys in *; cbn [length] in *; lia).
    split; [intros p C e X P; apply CL; auto|intros e e' X X'; apply FO; auto].
  Qed.
End bins.

(* ---------- the histogram and the cuts ---------- *)
Definition h_lt (a b : hist) : Prop := h_y a < h_y b.
Lemma hist_sorted : forall ends back rest, StronglySorted (fun a b => fst a <= fst b) ends -> (forall e, In e ends -> h_y back <= fst e) ->
  StronglySorted (fun a b => h_y b < h_y a) (back :: rest) -> StronglySorted (fun a b => h_y b < h_y a) (hist_loop ends back rest).
Proof.
  induction ends as [|[y c] ends IH]; intros back rest S L D; cbn [hist_loop]; [exact D|]. apply StronglySorted_inv in S as [S F]. rewrite Forall_forall in F.
  pose proof (L _ (or_introl eq_refl)) as LY. cbn [fst] in LY. destruct (Z.eqb_spec y (h_y back)) as [E|E].
  - apply IH; [exact S| |].
    + intros e X. unfold hist_add. cbn [h_y]. apply L. right. exact X.
    + apply StronglySorted_inv in D as [D1 D2]. constructor; [exact D1|exact D2].
  - apply IH; [exact S| |].
    + intros e X. unfold hist_add. cbn [h_y]. apply (F e X).
    + constructor; [exact D|]. apply StronglySorted_inv in D as [D1 D2]. unfold hist_add. cbn [h_y]. constructor; [lia|]. rewrite Forall_forall in *. intros h H. specialize (D2 h H). cbn beta in D2. lia.
Qed.
Lemma last_any {A : Type} (a : A) l d d' : last (a :: l) d = last (a :: l) d'.
Proof. revert a. induction l as [|b l IH]; intros a; [reflexivity|]. apply (IH b). Qed.
Lemma hist_last : forall ends back rest, exists l h, hist_loop ends back rest = l ++ [h] /\ h_y h = h_y (last (back :: rest) back).
Proof.
  induction ends as [|[y c] ends IH]; intros back rest; cbn [hist_loop].
  - exists (removelast (back :: rest)), (last (back :: rest) back). split; [apply app_removelast_last; discriminate|reflexivity].
  - destruct (y =? h_y back).
    + destruct (IH (hist_add back c) rest) as [l [h [E H]]]. exists l, h. split; [exact E|]. rewrite H. destruct rest as [|r rest]; [reflexivity|].
      change (h_y (last (r :: rest) (hist_add back c)) = h_y (last (r :: rest) back)). f_equal. apply last_any.
    + destruct (IH (hist_add (mk_hist y (h_at back) (h_done back)) c) (back :: rest)) as [l [h [E H]]]. exists l, h. split; [exact E|]. rewrite H.
      change (h_y (last (back :: rest) (hist_add (mk_hist y (h_at back) (h_done back)) c)) = h_y (last (back :: rest) back)). f_equal. apply last_any.
Qed.
Lemma sorted_rev {A : Type} (R : A -> A -> Prop) l : StronglySorted R l -> StronglySorted (fun a b => R b a) (rev l).
Proof.
  induction 1 as [|a l S IH F]; cbn [rev]; [constructor|]. rewrite Forall_forall in F.
  assert (AP : forall m, StronglySorted (fun x y => R y x) m -> (forall x, In x m -> R a x) -> StronglySorted (fun x y => R y x) (m ++ [a])).
  { clear. induction 1 as [|x m S IH FM]; intros H; cbn [app]; [constructor; constructor|]. constructor; [apply IH; intros z Z; apply H; right; exact Z|].
    apply Forall_app. split; [exact FM|]. constructor; [apply H; left; reflexivity|constructor]. }
  apply AP; [exact IH|]. intros x X. apply F. apply in_rev. exact X.
Qed.
Lemma histogram_spec data : data <> [] -> exists h0 hs, histogram_in_y data = Ok (h0 :: hs) /\ StronglySorted h_lt (h0 :: hs) /\
  (forall e, In e data -> h_y h0 <= Z.min (py (s_low (fst e))) (py (s_high (fst e)))).
Proof.
  intros N. unfold histogram_in_y. set (ends := sorted end_less (flat_map seg_ends data)).
  assert (SE : StronglySorted (fun a b => fst a <= fst b) ends).
  { apply sorted_sorted; [intros a b; unfold end_less; lia|intros a b; unfold end_less; lia|intros; lia]. }
  assert (IE : forall e, In e data -> In (py (s_low (fst e)), if py (s_low (fst e)) <? py (s_high (fst e)) then 1 else -1) ends /\ In (py (s_high (fst e)), - (if py (s_low (fst e)) <? py (s_high (fst e)) then 1 else -1)) ends).
  { intros e X. unfold ends. rewrite !sorted_in, !in_flat_map. split; exists e; (split; [exact X|]); unfold seg_ends; cbn [In]; auto. }
  destruct ends as [|[y c] ends'] eqn:EE.
  { exfalso. destruct data as [|e data]; [congruence|]. destruct (IE e (or_introl eq_refl)) as [[] _]. }
  clear EE. set (l := hist_loop ((y, c) :: ends') (mk_hist y 0 0) []).
  assert (LOW : forall e, In e ((y, c) :: ends') -> y <= fst e).
  { intros e [<-|X]; [apply Z.le_refl|]. apply StronglySorted_inv in SE as [_ F]. rewrite Forall_forall in F. apply (F e X). }
  assert (SL : StronglySorted (fun a b => h_y b < h_y a) l) by (apply hist_sorted; [exact SE|exact LOW|constructor; constructor]).
  destruct (hist_last ((y, c) :: ends') (mk_hist y 0 0) []) as [m [h [E H]]]. fold l in E. cbn [last h_y] in H.
  exists h, (rev m). assert (R : rev l = h :: rev m) by (rewrite E, rev_app_distr; reflexivity). rewrite R. split; [reflexivity|]. split.
  - rewrite <- R. apply sorted_rev in SL. exact SL.
  - intros e X. rewrite H. destruct (IE e X) as [A B]. apply LOW in A, B. cbn [fst] in A, B. lia.
Qed.
Lemma cut_scan_spec size l : forall position m cut cs cut' cs', cut_scan size position l m cut cs = (cut', cs') -> (cut' = cut /\ cs' = cs) \/ (cut' = cs' /\ position <= cut' < position + length l)%nat.
Proof.
  induction l as [|h l IH]; intros position m cut cs cut' cs' E; cbn [cut_scan] in E; [left; split; congruence|].
  destruct (Nat.ltb position (Nat.div size 3)); [apply IH in E; cbn [length]; destruct E as [E|E]; [left; exact E|right; lia]|].
  destruct (Nat.ltb (size - position) (Nat.div size 3)); [left; split; congruence|].
  destruct (h_at h <? m); apply IH in E; cbn [length].
  - destruct E as [[-> ->]|E]; right; lia.
  - destruct E as [E|E]; [left; exact E|right; lia].
Qed.
Lemma sorted_app_inv {A : Type} (R : A -> A -> Prop) a b : StronglySorted R (a ++ b) -> StronglySorted R a /\ StronglySorted R b /\ (forall x y, In x a -> In y b -> R x y).
Proof.
  induction a as [|x a IH]; cbn [app]; intros S; [split; [constructor|split; [exact S|intros x y []]]|]. apply StronglySorted_inv in S as [S F]. destruct (IH S) as [A1 [B1 C1]]. apply Forall_app in F as [F1 F2].
  split; [constructor; assumption|]. split; [exact B1|]. intros u y [<-|U] Y; [rewrite Forall_forall in F2; apply F2; exact Y|apply C1; assumption].
Qed.
Lemma sorted_app {A : Type} (R : A -> A -> Prop) a b : StronglySorted R a -> StronglySorted R b -> (forall x y, In x a -> In y b -> R x y) -> StronglySorted R (a ++ b).
Proof.
  induction 1 as [|x a S IH F]; cbn [app]; intros SB C; [exact SB|]. constructor; [apply IH; [exact SB|intros u v U V; apply C; [right; exact U|exact V]]|]. apply Forall_app. split; [exact F|]. apply Forall_forall. intros y Y. apply C; [left; reflexivity|exact Y].
Qed.
Lemma cuts_spec : forall fuel l size, (length l < fuel)%nat -> StronglySorted h_lt l ->
  exists cuts, y_cuts fuel l size = Ok cuts /\ StronglySorted Z.lt cuts /\ (forall k, In k cuts -> exists h, In h (tl l) /\ k = h_y h).
Proof.
  induction fuel as [|fuel IH]; intros l size L HS; [lia|]. cbn [y_cuts].
  assert (NIL : exists cuts, Ok (A := list Z) [] = Ok cuts /\ StronglySorted Z.lt cuts /\ (forall k, In k cuts -> exists h, In h (tl l) /\ k = h_y h)) by (exists []; split; [reflexivity|split; [constructor|intros k []]]).
  destruct l as [|h0 l0] eqn:EL; [exact NIL|]. rewrite <- EL in *. destruct (size <? 30); [exact NIL|].
  destruct (cut_scan (length l) 0 l size 0 0) as [cut cs] eqn:CS. apply cut_scan_spec in CS.
  assert (CL : (cut < length l)%nat) by (destruct CS as [[-> _]|[_ CS]]; [rewrite EL; cbn [length]; lia|lia]).
  destruct (nth_error l cut) as [c|] eqn:NE; [|apply nth_error_None in NE; lia].
  destruct (Nat.eqb_spec cs 0) as [C0|C0]; cbn [orb]; [exact NIL|]. destruct (h_at c >? size / 9); [exact NIL|].
  assert (C1 : (1 <= cut)%nat) by (destruct CS as [[_ ->]|[-> CS]]; lia).
  assert (SP : l = firstn cut l ++ skipn cut l) by (symmetry; apply firstn_skipn).
  assert (SK : skipn cut l = c :: skipn (S cut) l).
  { clear - NE. revert l NE. induction cut as [|cut IH]; intros [|h l] NE; try discriminate; [assert (h = c) by (cbn in NE; congruence); subst; reflexivity|]. apply (IH l NE). }
  pose proof HS as S0. rewrite SP in S0. apply sorted_app_inv in S0 as [SF [SS SC]].
  destruct (IH (firstn cut l) (usize (h_at c + h_done c))) as [left [EL1 [SL1 IL1]]]; [rewrite firstn_length; lia|exact SF|].
  destruct (IH (skipn cut l) (usize (size - h_done c))) as [right [ER1 [SR1 IR1]]]; [rewrite skipn_length; lia|exact SS|].
  rewrite EL1. cbn [obind]. rewrite ER1. cbn [obind]. exists (left ++ h_y c :: right). split; [reflexivity|].
  assert (CR : forall k, In k right -> h_y c < k).
  { intros k K. apply IR1 in K as [h [H ->]]. rewrite SK in SS, H. cbn [tl] in H. apply StronglySorted_inv in SS as [_ F]. rewrite Forall_forall in F. apply (F h H). }
  assert (LC : forall k, In k left -> k < h_y c).
  { intros k K. apply IL1 in K as [h [H ->]]. apply (SC h c); [destruct (firstn cut l); [destruct H|right; exact H]|rewrite SK; left; reflexivity]. }
  split.
  - apply sorted_app; [exact SL1|constructor; [exact SR1|apply Forall_forall; exact CR]|]. intros x y X [<-|Y]; [apply LC; exact X|]. pose proof (LC x X). pose proof (CR y Y). lia.
  - intros k K. apply in_app_or in K.
    assert (TL : forall h, In h (tl (firstn cut l)) -> In h (tl l)).
    { intros h H. rewrite SP. destruct (firstn cut l) as [|h1 f]; [destruct H|]. cbn [tl app] in *. apply in_or_app. left. exact H. }
    assert (TR : forall h, In h (skipn cut l) -> In h (tl l)).
    { intros h H. rewrite SP. destruct (firstn cut l) as [|h1 f] eqn:F; [apply (f_equal (@length hist)) in F; rewrite firstn_length in F; cbn [length] in F; lia|]. cbn [tl app]. apply in_or_app. right. exact H. }
    destruct K as [K|[<-|K]].
    + apply IL1 in K as [h [H ->]]. exists h. split; [apply TL; exact H|reflexivity].
    + exists c. split; [apply TR; rewrite SK; left; reflexivity|reflexivity].
    + apply IR1 in K as [h [H ->]]. exists h. split; [apply TR; destruct (skipn cut l); [destruct H|right; exact H]|reflexivity].
Qed.
Theorem scan_bins_spec data : data <> [] -> (forall e, In e data -> seg_small (fst e)) -> (forall e e', In e data -> In e' data -> snd e = snd e' -> e = e') ->
  exists ips, scan_bins data (fun _ => []) = Ok ips /\ sound (map he_order data) ips /\ sets_sorted ips /\
    (forall p, an_end data p \/ (exists e, In e data /\ In p (ips (snd e))) -> forall e, In e data -> passes (fst e) p -> In p (ips (snd e))) /\
    (forall e e', In e (map he_order data) -> In e' (map he_order data) -> found ips (fst e) (snd e) (fst e') (snd e')).
Proof.
  intros N SM U. unfold scan_bins. destruct (histogram_spec data N) as [h0 [hs [E [HS L]]]]. rewrite E. cbn [obind]. cbv iota beta.
  destruct (cuts_spec (S (length (h0 :: hs))) (h0 :: hs) (usize (Z.of_nat (length data)))) as [cuts [EC [SC IC]]]; [lia|exact HS|]. unfold entry in EC |- *. rewrite EC. cbn [obind]. cbv zeta.
  apply all_bins; [exact SM|exact U| |exact L].
  constructor; [exact SC|]. apply Forall_forall. intros k K. apply IC in K as [h [H ->]]. apply StronglySorted_inv in HS as [_ F]. rewrite Forall_forall in F. apply (F h H).
Qed.
