(* The pieces of the segments: chains of grid points; they meet at common ends
   only and stay close to the segments. *)
From Verif Require Import Base Units Outcome Scan90Spec Poly90Spec Poly90Model Poly90Proofs.
From Verif Require Import Set90Spec Set90Model GeoSpec IvlModel IvlProofs RectModel RectProofs SegModel SegProofs PolySpec PolyModel PolyEdge ScanBaseModel ScanBaseOab.
From Verif Require Import SnapMove SnapNode SnapModel SnapChain ScanBaseProofs ScanBaseGrid ScanBaseCross SnapLoops SnapBins SnapSpec.
From Coq Require Import Reals Lra Psatz Sorting.Sorted Arith.
Local Open Scope Z_scope.

(* ---------- specification and proof vocabulary ---------- *)
Lemma on_ron s x y : on_r s x y <-> ron (s_low s) (s_high s) x y.
Proof. unfold on_r, ron, on, unit. split; intros [t [T [A B]]]; exists t; rewrite A, B || rewrite <- A, <- B; auto. Qed.
Lemma end_is s x y : end_r s x y <-> seg_end_r s x y.
Proof. reflexivity. Qed.
Lemma fits_small s : fits s <-> seg_small s.
Proof. unfold fits, seg_small, coord_fits, small_pt, INT_MIN, INT_MAX. lia. Qed.
(* the half edge from the lower end *)
Definition asc (s : seg) : seg := mk_seg (lo_end s) (hi_end s).
Lemma he_up e : fst (he_order e) = asc (fst e).
Proof. unfold he_order, asc, lo_end, hi_end. change (lex_lt (s_high (fst e)) (s_low (fst e))) with (pt_less (s_high (fst e)) (s_low (fst e))). destruct (pt_less _ _); cbn [fst]; [reflexivity|]. destruct e as [[a b] i]. reflexivity. Qed.
Lemma he_is e : he_order e = (asc (fst e), snd e).
Proof. rewrite <- he_up, <- he_order_id at 1. apply surjective_pairing. Qed.
Lemma up_passes s p : passes (asc s) p <-> passes s p.
Proof. pose proof (he_order_passes (s, 0) p) as H. rewrite he_up in H. exact H. Qed.
Lemma up_on s x y : on_r (asc s) x y <-> on_r s x y.
Proof. rewrite !on_ron. pose proof (he_order_ron (s, 0) x y) as H. rewrite he_up in H. exact H. Qed.
Lemma up_directed s : s_low s <> s_high s -> directed (asc s).
Proof.
  intros N. unfold directed, asc, lo_end, hi_end. cbn [s_low s_high]. change (lex_lt (s_high s) (s_low s)) with (pt_less (s_high s) (s_low s)). destruct (pt_less (s_high s) (s_low s)) eqn:E; [exact E|].
  destruct (pt_less (s_low s) (s_high s)) eqn:F; [reflexivity|]. contradiction N. apply pt_less_total; assumption.
Qed.

(* ---------- the order of the points of a segment ---------- *)
Lemma down_trans p q r : down_less p q = true -> down_less q r = true -> down_less p r = true.
Proof. unfold down_less. lia. Qed.
Lemma ord_trans s p q r : ord s p q = true -> ord s q r = true -> ord s p r = true.
Proof. unfold ord. destruct (falls s); [apply down_trans|apply pt_less_trans]. Qed.
Definition o_lt (s : seg) (p q : point) : Prop := ord s p q = true.
Lemma sorted_nodup (R : point -> point -> Prop) l : (forall p, ~ R p p) -> StronglySorted R l -> NoDup l.
Proof.
  intros I. induction 1 as [|a l S IH F]; constructor; [|exact IH]. intros X. rewrite Forall_forall in F. exact (I a (F a X)).
Qed.
Lemma sort_nodup (less : point -> point -> bool) l : NoDup l -> NoDup (sorted less l).
Proof.
  induction 1 as [|a l N ND IH]; [constructor|]. cbn [sorted fold_right]. fold (sorted less l). rewrite <- (sorted_in less) in N. revert IH N. generalize (sorted less l). clear.
  induction l as [|b l IH]; intros ND N; cbn [sort_insert]; [constructor; [intros []|constructor]|]. destruct (less b a); [|constructor; assumption].
  inversion ND; subst. constructor; [|apply IH; [assumption|intros X; apply N; right; exact X]]. rewrite sort_insert_in. intros [->|X]; [apply N; left; reflexivity|contradiction].
Qed.
Lemma strict_of (R : point -> point -> Prop) l : NoDup l -> StronglySorted (fun p q => p = q \/ R p q) l -> StronglySorted R l.
Proof.
  induction l as [|a l IH]; intros N S; [constructor|]. inversion N; subst. apply StronglySorted_inv in S as [S F]. constructor; [apply IH; assumption|].
  rewrite Forall_forall in *. intros x X. destruct (F x X) as [E|E]; [subst; contradiction|exact E].
Qed.
Lemma down_sorted l : NoDup l -> StronglySorted (fun p q => down_less p q = true) (sorted down_less l).
Proof.
  intros N. apply strict_of; [apply sort_nodup; exact N|]. apply sorted_sorted.
  - intros a b H. right. exact H.
  - intros [a b] [c d]. unfold down_less. cbn [px py]. intros H. destruct (Z.eq_dec a c) as [->|X]; [destruct (Z.eq_dec b d) as [->|Y]; [left; reflexivity|]|]; right; lia.
  - intros a b c [->|H] [->|K]; auto. right. apply (down_trans _ b); assumption.
Qed.

(* ---------- chains ---------- *)
Lemma chain_ids p l i e : In e (chain p l i) -> snd e = i.
Proof. revert p. induction l as [|q l IH]; intros p; cbn [chain]; [intros []|]. intros [<-|X]; [reflexivity|apply (IH q X)]. Qed.
Lemma chain_split p l i e : In e (chain p l i) -> exists a b, p :: l = a ++ s_low (fst e) :: s_high (fst e) :: b.
Proof.
  revert p. induction l as [|q l IH]; intros p; cbn [chain]; [intros []|]. intros [<-|X]; [exists [], l; reflexivity|]. destruct (IH q X) as [a [b E]]. exists (p :: a), b. rewrite E. reflexivity.
Qed.
Lemma split_chain p l i : forall a u v b, p :: l = a ++ u :: v :: b -> In (mk_seg u v, i) (chain p l i).
Proof.
  revert p. induction l as [|q l IH]; intros p [|x a] u v b E; try (destruct a; discriminate); try discriminate.
  - cbn [app] in E. cbn [chain]. left. congruence.
  - cbn [app] in E. cbn [chain]. right. apply (IH q a u v b). congruence.
Qed.
Lemma chain_path p l i : path p (map fst (chain p l i)) (last l p).
Proof. revert p. induction l as [|q l IH]; intros p; cbn [chain map path]; [reflexivity|]. split; [reflexivity|]. cbn [fst s_high]. specialize (IH q). destruct l as [|r l]; [exact IH|]. change (last (q :: r :: l) p) with (last (r :: l) p). rewrite (last_any r l p q). exact IH. Qed.
Lemma chain_highs p l i : map s_high (map fst (chain p l i)) = l.
Proof. revert p. induction l as [|q l IH]; intros p; [reflexivity|]. cbn [chain map fst s_high]. rewrite IH. reflexivity. Qed.

(* ---------- the points of one segment ---------- *)
Definition walk (e : entry) (pts : list point) : list point := if falls (asc (fst e)) then sorted down_less pts else pts.
Lemma walk_in e pts p : In p (walk e pts) <-> In p pts.
Proof. unfold walk. destruct (falls _); [apply sorted_in|reflexivity]. Qed.
Lemma walk_sorted e pts : StronglySorted p_lt pts -> StronglySorted (o_lt (asc (fst e))) (walk e pts).
Proof.
  intros S. unfold walk, o_lt, ord. destruct (falls (asc (fst e))); [|exact S]. apply down_sorted. apply (sorted_nodup p_lt); [|exact S]. intros p P. unfold p_lt in P. rewrite pt_less_irrefl in P. discriminate.
Qed.
Lemma slope_falls s : seg_small s -> negb (sb_vertical s) && eu_less_slope (s_low s) (s_high s) (mk_pt (px (s_low s) + 1) (py (s_low s))) = falls (asc s).
Proof.
  intros SS. pose proof (seg_small_int _ SS) as [IL IH]. destruct SS as [SL [SH _]].
  assert (IP : pt_int (mk_pt (px (s_low s) + 1) (py (s_low s)))) by (unfold small_pt in SL; unfold pt_int, is_int in *; cbn [px py]; unfold INT_MIN, INT_MAX in *; lia).
  apply eq_iff_eq_true. rewrite andb_true_iff, negb_true_iff, (less_slope_c _ _ _ IL IH IP). unfold sb_vertical, falls, asc, lo_end, hi_end, side, cross, lex_lt. cbn [px py s_low s_high].
  rewrite andb_true_iff, Z.ltb_lt, Z.ltb_lt, Z.eqb_neq.
  destruct s as [[a b] [c d]]. cbn [px py s_low s_high].
  destruct ((c <? a) || (c =? a) && (d <? b)) eqn:E; cbn [px py s_low s_high].
  - assert (c <= a) by lia. split; [intros [_ [N [X|[_ X]]]]; [lia|nia]|]. intros X. split; [lia|]. split; [lia|]. right. split; [lia|]. nia.
  - assert (a <= c) by lia. split; [intros [_ [N [X|[_ X]]]]; [lia|nia]|]. intros X. split; [lia|]. split; [lia|]. right. split; [lia|]. nia.
Qed.
Lemma pieces_eq e pts : seg_small (fst e) -> segment_pieces e pts = segment_edge (walk e pts) (snd e).
Proof.
  intros SS. unfold segment_pieces. rewrite (chk_in (px (s_low (fst e)) + 1)) by (destruct SS as [SL _]; unfold small_pt in SL; unfold is_int, INT_MIN, INT_MAX in *; lia).
  cbn [obind]. rewrite (slope_falls _ SS). unfold walk. destruct (falls _); reflexivity.
Qed.
Definition links (ips : ptsets) (e : entry) : list entry := match walk e (ips (snd e)) with [] => [] | p :: l => chain p l (snd e) end.
Lemma all_pieces data ips : (forall e, In e data -> seg_small (fst e) /\ ips (snd e) <> []) -> segment_intersections data ips = Ok (flat_map (links ips) data).
Proof.
  induction data as [|e data IH]; intros H; cbn [segment_intersections flat_map]; [reflexivity|]. destruct (H e (or_introl eq_refl)) as [SS NE].
  rewrite (pieces_eq _ _ SS), (IH (fun e' X => H e' (or_intror X))). unfold links at 2. destruct (walk e (ips (snd e))) as [|p l] eqn:W; [|reflexivity].
  exfalso. destruct (ips (snd e)) as [|q m] eqn:Q; [congruence|]. pose proof (proj2 (walk_in e (q :: m) q) (or_introl eq_refl)) as X. rewrite W in X. exact X.
Qed.
Lemma links_id ips e x : In x (links ips e) -> snd x = snd e.
Proof. unfold links. destruct (walk _ _); [intros []|apply chain_ids]. Qed.
(* ids are indices *)
Lemma number_in i l : forall s k, In (s, k) (number_from i l) <-> i <= k /\ nth_error l (Z.to_nat (k - i)) = Some s.
Proof.
  revert i. induction l as [|a l IH]; intros i s k; cbn [number_from In].
  - split; [intros []|]. intros [_ X]. destruct (Z.to_nat (k - i)); discriminate.
  - rewrite IH. split.
    + intros [E|[L N]]; [assert (a = s) by congruence; assert (i = k) by congruence; subst; split; [lia|]; rewrite Z.sub_diag; reflexivity|].
      split; [lia|]. replace (Z.to_nat (k - i)) with (S (Z.to_nat (k - (i + 1)))) by lia. exact N.
    + intros [L N]. destruct (Z.eq_dec k i) as [->|X]; [left; rewrite Z.sub_diag in N; cbn in N; congruence|]. right. split; [lia|].
      replace (Z.to_nat (k - i)) with (S (Z.to_nat (k - (i + 1)))) in N by lia. exact N.
Qed.
Lemma number_ids i l : forall n, Forall (fun e : entry => i <= snd e) (number_from i l) /\ (Z.of_nat (length l) <= n -> Forall (fun e : entry => snd e < i + n) (number_from i l)).
Proof.
  revert i. induction l as [|a l IH]; intros i n; cbn [number_from]; [split; constructor|]. destruct (IH (i + 1) (n - 1)) as [A B]. split.
  - constructor; [cbn [snd]; lia|]. apply Forall_forall. rewrite Forall_forall in A. intros e X. specialize (A e X). lia.
  - cbn [length]. intros L. constructor; [cbn [snd]; lia|]. apply Forall_forall. specialize (B ltac:(lia)). rewrite Forall_forall in B. intros e X. specialize (B e X). lia.
Qed.
Lemma number_length i l : length (number_from i l) = length l.
Proof. revert i. induction l as [|a l IH]; intros i; cbn [number_from length]; [reflexivity|]. rewrite IH. reflexivity. Qed.
Lemma number_uniq l : forall e e', In e (number_from 0 l) -> In e' (number_from 0 l) -> snd e = snd e' -> e = e'.
Proof. intros [s i] [t j] X Y E. cbn [snd] in E. subst j. apply number_in in X as [_ X]. apply number_in in Y as [_ Y]. congruence. Qed.
Lemma ids_hold l : ids_ok (number_from 0 l) = true.
Proof.
  unfold ids_ok. apply forallb_forall. intros e X. destruct (number_ids 0 l (Z.of_nat (length l))) as [A B]. rewrite Forall_forall in A. specialize (B (Z.le_refl _)). rewrite Forall_forall in B.
  rewrite number_length. specialize (A e X). specialize (B e X). lia.
Qed.
Lemma filter_links ips i : forall data e, (forall e e', In e data -> In e' data -> snd e = snd e' -> e = e') -> NoDup (map snd data) -> In e data -> snd e = i -> filter (fun x : entry => snd x =? i) (flat_map (links ips) data) = links ips e.
Proof.
  assert (ALL : forall d, snd d = i -> filter (fun x : entry => snd x =? i) (links ips d) = links ips d).
  { intros d D. assert (H : forall x, In x (links ips d) -> snd x = i) by (intros x X; rewrite (links_id _ _ _ X); exact D). induction (links ips d) as [|x m IH]; [reflexivity|]. cbn [filter].
    rewrite (H x (or_introl eq_refl)), Z.eqb_refl. rewrite IH; [reflexivity|intros y Y; apply H; right; exact Y]. }
  assert (NONE : forall d, snd d <> i -> filter (fun x : entry => snd x =? i) (links ips d) = []).
  { intros d D. assert (H : forall x, In x (links ips d) -> snd x <> i) by (intros x X; rewrite (links_id _ _ _ X); exact D). induction (links ips d) as [|x m IH]; [reflexivity|]. cbn [filter].
    pose proof (H x (or_introl eq_refl)) as HX. destruct (Z.eqb_spec (snd x) i) as [E|E]; [contradiction|]. apply IH. intros y Y. apply H. right. exact Y. }
  assert (OUT : forall data, ~ In i (map snd data) -> filter (fun x : entry => snd x =? i) (flat_map (links ips) data) = []).
  { induction data as [|d data IH]; intros N; [reflexivity|]. cbn [flat_map]. rewrite filter_app, NONE, IH; [reflexivity|intros X; apply N; right; exact X|intros X; apply N; left; exact X]. }
  induction data as [|d data IH]; intros e U ND X E; [destruct X|]. cbn [flat_map]. rewrite filter_app. cbn [map] in ND. inversion ND as [|? ? N1 N2]; subst.
  destruct (Z.eq_dec (snd d) (snd e)) as [DE|DE].
  - assert (d = e) by (apply U; [left; reflexivity|exact X|exact DE]). subst d. rewrite ALL by reflexivity. rewrite OUT; [apply app_nil_r|exact N1].
  - rewrite NONE by exact DE. destruct X as [->|X]; [congruence|]. cbn [app]. apply IH; [intros a b A B; apply U; right; assumption|exact N2|exact X|reflexivity].
Qed.
Lemma same_sorted (i : Z) m : (forall x, In x m -> x = i) -> StronglySorted Z.le m.
Proof.
  induction m as [|x m IH]; intros H; constructor; [apply IH; intros y Y; apply H; right; exact Y|]. apply Forall_forall. intros y Y. rewrite (H x (or_introl eq_refl)), (H y (or_intror Y)). apply Z.le_refl.
Qed.
Lemma number_nodup i l : NoDup (map snd (number_from i l)).
Proof.
  revert i. induction l as [|a l IH]; intros i; cbn [number_from map]; constructor; [|apply IH]. cbn [snd]. intros X. apply in_map_iff in X as [e [E X]].
  destruct (number_ids (i + 1) l 0) as [A _]. rewrite Forall_forall in A. specialize (A e X). lia.
Qed.

(* ---------- everything ---------- *)
Definition is_walk (hot : point -> Prop) (s : seg) (w : list point) : Prop :=
  StronglySorted (o_lt (asc s)) w /\ (forall c, In c w <-> hot c /\ passes s c).
Theorem snap_main l : (forall s, In s l -> seg_small s) -> exists out (hot : point -> Prop) (w : Z -> list point),
  intersect_segments l = Ok out /\
  (forall e, In e out -> 0 <= snd e < Z.of_nat (length l)) /\
  StronglySorted Z.le (map snd out) /\
  (forall i s, 0 <= i -> nth_error l (Z.to_nat i) = Some s -> is_walk hot s (w i) /\ exists p ps, w i = p :: ps /\ filter (fun e : entry => snd e =? i) out = chain p ps i) /\
  (forall s, In s l -> hot (s_low s) /\ hot (s_high s)) /\
  (forall s t, In s l -> In t l -> cross_hot hot (asc s) (asc t)) /\
  (forall c, hot c -> origin (map he_order (number_from 0 l)) c).
Proof.
  intros SM. destruct l as [|s0 l0] eqn:EL.
  { exists [], (fun _ => False), (fun _ => []). split; [reflexivity|]. split; [intros e []|]. split; [constructor|]. split; [intros i s _ X; destruct (Z.to_nat i); discriminate|]. split; [intros s []|]. split; [intros s t []|intros c []]. }
  rewrite <- EL in *. set (data := number_from 0 l).
  assert (DS : forall e, In e data -> In (fst e) l).
  { intros [s i] X. apply number_in in X as [_ X]. cbn [fst]. apply (nth_error_In _ _ X). }
  assert (SD : forall s, In s l -> exists i, In (s, i) data).
  { intros s X. apply In_nth_error in X as [n N]. exists (Z.of_nat n). apply number_in. split; [lia|]. rewrite Z.sub_0_r, Nat2Z.id. exact N. }
  assert (DN : data <> []) by (unfold data; rewrite EL; discriminate).
  assert (DM : forall e, In e data -> seg_small (fst e)) by (intros e X; apply SM, DS, X).
  destruct (scan_bins_spec data DN DM (number_uniq l)) as [ips [E [S [K [CL FO]]]]].
  set (hot := fun p => exists e, In e data /\ In p (ips (snd e))).
  assert (PS : forall e p, In e data -> In p (ips (snd e)) -> passes (fst e) p /\ origin (map he_order data) p).
  { intros e p X P. destruct (S (asc (fst e)) (snd e) p) as [A B]; [rewrite <- he_is; apply in_map; exact X|exact P|]. split; [apply up_passes; exact A|exact B]. }
  assert (ENDS : forall e p, In e data -> p = s_low (fst e) \/ p = s_high (fst e) -> In p (ips (snd e))).
  { intros e p X P. apply CL; [left; exists e; auto|exact X|]. destruct P as [-> | ->]; apply passes_pt; [apply ron_low|apply ron_high]. }
  exists (flat_map (links ips) data), hot, (fun i => match nth_error l (Z.to_nat i) with Some s => walk (s, i) (ips i) | None => [] end).
  split.
  { unfold intersect_segments. rewrite EL, <- EL. fold data. unfold validate_scan. unfold data at 1. rewrite ids_hold. rewrite E. cbn [obind]. apply all_pieces.
    intros e X. split; [apply DM; exact X|]. intros N. pose proof (ENDS e _ X (or_introl eq_refl)) as H. rewrite N in H. exact H. }
  split.
  { intros e X. apply in_flat_map in X as [d [D X]]. rewrite (links_id _ _ _ X). pose proof (ids_hold l) as IH. unfold ids_ok in IH. rewrite forallb_forall in IH. specialize (IH d D). rewrite number_length in IH. lia. }
  split.
  { clear. unfold data. generalize 0. induction l as [|s l IH]; intros i; cbn [number_from flat_map map]; [constructor|]. rewrite map_app. apply sorted_app; [|apply IH|].
    - assert (H : forall x, In x (map snd (links ips (s, i))) -> x = i) by (intros x X; apply in_map_iff in X as [e [<- X]]; apply (links_id _ _ _ X)).
      apply (same_sorted i). exact H.
    - intros x y X Y. apply in_map_iff in X as [e [<- X]]. apply in_map_iff in Y as [e' [<- Y]]. rewrite (links_id _ _ _ X). apply in_flat_map in Y as [d [D Y]]. rewrite (links_id _ _ _ Y).
      destruct (number_ids (i + 1) l 0) as [A _]. rewrite Forall_forall in A. specialize (A d D). cbn [snd]. lia. }
  split.
  { intros i s I N. rewrite N. assert (X : In (s, i) data) by (apply number_in; rewrite Z.sub_0_r; auto).
    split.
    - split; [apply (walk_sorted (s, i)); apply K|]. intros c. rewrite walk_in. split.
      + intros C. split; [exists (s, i); auto|]. apply (PS (s, i)); assumption.
      + intros [H P]. apply (CL c (or_intror H) (s, i)); assumption.
    - rewrite (filter_links ips i data (s, i)); [|apply number_uniq|apply number_nodup|exact X|reflexivity]. unfold links. cbn [snd].
      destruct (walk (s, i) (ips i)) as [|p ps] eqn:W; [|exists p, ps; auto]. exfalso.
      pose proof (ENDS (s, i) _ X (or_introl eq_refl)) as H. cbn [fst snd] in H. apply (walk_in (s, i)) in H. rewrite W in H. exact H. }
  split.
  { intros s X. destruct (SD s X) as [i XI]. split; exists (s, i); (split; [exact XI|]); apply (ENDS (s, i) _ XI); auto. }
  split.
  { intros s t X Y x y N RS RT. destruct (SD s X) as [i XI]. destruct (SD t Y) as [j YJ].
    assert (ENDHOT : forall r k, In (r, k) data -> seg_end_r (asc r) x y -> exists c, hot c /\ pixel c x y).
    { intros r k R [[-> ->]|[-> ->]]; unfold asc; cbn [s_low s_high]; [exists (lo_end r)|exists (hi_end r)]; (split; [|apply pixel_self]); exists (r, k); (split; [exact R|]); apply (ENDS (r, k) _ R); unfold lo_end, hi_end; cbn [fst]; destruct (lex_lt _ _); auto. }
    assert (DEC : forall r, seg_end_r r x y \/ ~ seg_end_r r x y).
    { intros r. unfold seg_end_r, is_pt. destruct (Req_dec x (IZR (px (s_low r)))), (Req_dec y (IZR (py (s_low r)))), (Req_dec x (IZR (px (s_high r)))), (Req_dec y (IZR (py (s_high r)))); tauto. }
    destruct (DEC (asc s)) as [ES|ES]; [left; apply (ENDHOT s i); assumption|]. destruct (DEC (asc t)) as [ET|ET]; [left; apply (ENDHOT t j); assumption|].
    rewrite rcross_cross in N.
    destruct (FO (he_order (s, i)) (he_order (t, j)) (in_map _ _ _ XI) (in_map _ _ _ YJ) x y) as [p [P1 [P2 NE]]]; rewrite ?he_is in *; cbn [fst snd] in *.
    { intros H. apply N. rewrite H. reflexivity. }
    { split; assumption. }
    { exact ES. }
    { exact ET. }
    assert (HP : hot p) by (exists (s, i); auto).
    assert (A1 : passes (asc s) p) by (apply up_passes; apply (PS (s, i)); assumption). assert (A2 : passes (asc t) p) by (apply up_passes; apply (PS (t, j)); assumption).
    destruct NE as [NE|[[[V PX]|[V PX]] NE]]; [left; exists p; auto| |].
    - right. left. apply sb_vertical_iff in V. split; [exact V|]. exists p. auto.
    - right. right. apply sb_vertical_iff in V. split; [exact V|]. exists p. auto. }
  intros c [e [X C]]. apply (PS e c X C).
Qed.
