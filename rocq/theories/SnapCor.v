(* What the points of snap_main say about the pieces. *)
From Verif Require Import Base Units Outcome Scan90Spec Poly90Spec Poly90Model Poly90Proofs.
From Verif Require Import Set90Spec Set90Model GeoSpec IvlModel IvlProofs RectModel RectProofs SegModel SegProofs PolySpec PolyModel PolyEdge ScanBaseModel ScanBaseOab.
From Verif Require Import SnapMove SnapNode SnapModel SnapChain ScanBaseProofs ScanBaseGrid ScanBaseCross SnapLoops SnapBins SnapSpec SnapProofs.
From Coq Require Import Reals Lra Psatz Sorting.Sorted Arith.
Local Open Scope Z_scope.

Lemma passes_point a p : passes (mk_seg a a) p -> p = a.
Proof.
  intros [x [y [[t [_ [X Y]]] P]]]. cbn [s_low s_high] in X, Y. replace x with (IZR (px a)) in P by lra. replace y with (IZR (py a)) in P by lra. symmetry. apply pixel_lattice. exact P.
Qed.
Lemma up_point s : s_low s = s_high s -> asc s = mk_seg (s_low s) (s_low s).
Proof. intros E. unfold asc, lo_end, hi_end. rewrite <- E. destruct (lex_lt _ _); reflexivity. Qed.
Lemma lo_hi_in s : (lo_end s = s_low s /\ hi_end s = s_high s) \/ (lo_end s = s_high s /\ hi_end s = s_low s).
Proof. unfold lo_end, hi_end. destruct (lex_lt _ _); auto. Qed.
Lemma pixel_within c x y : pixel c x y <-> within (IZR (px c)) (IZR (py c)) x y.
Proof. unfold pixel, within. lra. Qed.

Lemma in_some {A : Type} (x : A) l : In x l -> exists p ps, l = p :: ps.
Proof. destruct l as [|p ps]; [intros []|]. intros _. exists p, ps. reflexivity. Qed.
Section walk.
  Variables (hot : point -> Prop) (s : seg) (w : list point).
  Hypothesis W : is_walk hot s w.
  Hypothesis HL : hot (s_low s).
  Hypothesis HH : hot (s_high s).
  Lemma w_passes c : In c w -> passes (asc s) c.
  Proof. intros H. apply up_passes. apply (proj2 W). exact H. Qed.
  Lemma w_lo : In (lo_end s) w.
  Proof. apply (proj2 W). destruct (lo_hi_in s) as [[-> _]|[-> _]]; (split; [assumption|]); apply passes_pt; [apply ron_low|apply ron_high]. Qed.
  Lemma w_hi : In (hi_end s) w.
  Proof. apply (proj2 W). destruct (lo_hi_in s) as [[_ ->]|[_ ->]]; (split; [assumption|]); apply passes_pt; [apply ron_high|apply ron_low]. Qed.
  Lemma w_single : s_low s = s_high s -> forall c, In c w -> c = s_low s.
  Proof. intros E c C. apply w_passes in C. rewrite (up_point s E) in C. apply passes_point. exact C. Qed.
  Lemma w_nodup : NoDup w.
  Proof. apply (sorted_nodup (o_lt (asc s))); [intros p P; exact (ord_irrefl _ _ P)|apply W]. Qed.
  Lemma w_pair a u v b : w = a ++ u :: v :: b -> s_low s <> s_high s /\ exists tu tv, clink hot (asc s) u v tu tv.
  Proof.
    intros E.
    assert (IU : In u w) by (rewrite E; apply in_or_app; right; left; reflexivity). assert (IV : In v w) by (rewrite E; apply in_or_app; right; right; left; reflexivity).
    pose proof (proj1 W) as S. rewrite E in S. apply sorted_app_inv in S as [SA [SB AB]]. apply StronglySorted_inv in SB as [SB FU]. apply StronglySorted_inv in SB as [SB FV].
    rewrite Forall_forall in FU, FV. pose proof (FU v (or_introl eq_refl)) as UV.
    assert (N : s_low s <> s_high s).
    { intros H. assert (u = v) by (rewrite (w_single H u IU), (w_single H v IV); reflexivity). subst v. exact (ord_irrefl _ _ UV). }
    split; [exact N|]. apply clink_exists; [apply up_directed; exact N|apply (proj2 W u); exact IU|apply (proj2 W v); exact IV|apply w_passes; exact IU|apply w_passes; exact IV|exact UV|].
    intros c HC PC OU OV. assert (IC : In c w) by (apply (proj2 W); split; [exact HC|apply up_passes; exact PC]).
    rewrite E in IC. apply in_app_or in IC. destruct IC as [IC|[<-|[<-|IC]]].
    - exact (ord_asym _ _ _ OU (AB c u IC (or_introl eq_refl))).
    - exact (ord_irrefl _ _ OU).
    - exact (ord_irrefl _ _ OV).
    - exact (ord_asym _ _ _ OV (FV c IC)).
  Qed.
  Lemma at_end0 : at_x (asc s) 0 = IZR (px (lo_end s)) /\ at_y (asc s) 0 = IZR (py (lo_end s)).
  Proof. unfold at_x, at_y, asc. cbn [s_low s_high]. lra. Qed.
  Lemma at_end1 : at_x (asc s) 1 = IZR (px (hi_end s)) /\ at_y (asc s) 1 = IZR (py (hi_end s)).
  Proof. unfold at_x, at_y, asc. cbn [s_low s_high]. lra. Qed.
  Lemma w_param c : In c w -> exists t, (0 <= t <= 1)%R /\ pixel c (at_x (asc s) t) (at_y (asc s) t).
  Proof. intros C. apply w_passes in C. destruct C as [x [y [[t [T [<- <-]]] P]]]. exists t. split; [exact T|exact P]. Qed.
  Lemma lo_le c : s_low s <> s_high s -> In c w -> lo_end s = c \/ ord (asc s) (lo_end s) c = true.
  Proof.
    intros N C. destruct (w_param c C) as [t [T P]]. apply (pass_mono (asc s) 0 t); [apply up_directed; exact N|lra| |exact P].
    destruct at_end0 as [-> ->]. apply pixel_self.
  Qed.
  Lemma le_hi c : s_low s <> s_high s -> In c w -> c = hi_end s \/ ord (asc s) c (hi_end s) = true.
  Proof.
    intros N C. destruct (w_param c C) as [t [T P]]. apply (pass_mono (asc s) t 1); [apply up_directed; exact N|lra|exact P|].
    destruct at_end1 as [-> ->]. apply pixel_self.
  Qed.
  Lemma w_first p ps : w = p :: ps -> p = lo_end s.
  Proof.
    intros E. assert (IP : In p w) by (rewrite E; left; reflexivity). destruct (pt_eqb (s_low s) (s_high s)) eqn:Q.
    - apply pt_eqb_iff in Q. rewrite (w_single Q p IP). destruct (lo_hi_in s) as [[-> _]|[-> _]]; congruence.
    - assert (N : s_low s <> s_high s) by (intros H; apply pt_eqb_iff in H; congruence).
      destruct (lo_le p N IP) as [H|H]; [congruence|]. pose proof w_lo as L. rewrite E in L. destruct L as [L|L]; [exact L|]. exfalso.
      pose proof (proj1 W) as S. rewrite E in S. apply StronglySorted_inv in S as [_ F]. rewrite Forall_forall in F. exact (ord_asym _ _ _ H (F _ L)).
  Qed.
  Lemma w_last p ps : w = p :: ps -> last ps p = hi_end s.
  Proof.
    intros E. assert (AL : w = removelast (p :: ps) ++ [last (p :: ps) p]) by (rewrite E; apply app_removelast_last; discriminate).
    assert (LE : last (p :: ps) p = last ps p) by (destruct ps; reflexivity). rewrite LE in AL. set (q := last ps p) in *.
    assert (IQ : In q w) by (rewrite AL; apply in_or_app; right; left; reflexivity). destruct (pt_eqb (s_low s) (s_high s)) eqn:Q.
    - apply pt_eqb_iff in Q. rewrite (w_single Q q IQ). destruct (lo_hi_in s) as [[_ ->]|[_ ->]]; congruence.
    - assert (N : s_low s <> s_high s) by (intros H; apply pt_eqb_iff in H; congruence).
      destruct (le_hi q N IQ) as [H|H]; [exact H|]. pose proof w_hi as L. rewrite AL in L. apply in_app_or in L. destruct L as [L|[L|[]]]; [|exact L]. exfalso.
      pose proof (proj1 W) as S. rewrite AL in S. apply sorted_app_inv in S as [_ [_ AB]]. exact (ord_asym _ _ _ H (AB _ q L (or_introl eq_refl))).
  Qed.
  (* the part of the segment next to a point *)
  Lemma w_cover t : (0 <= t <= 1)%R -> forall p ps a tp, w = a ++ p :: ps -> ps <> [] -> (0 <= tp <= t)%R -> pixel p (at_x (asc s) tp) (at_y (asc s) tp) ->
    exists a' u v b tu tv, w = a' ++ u :: v :: b /\ (tu <= t <= tv)%R /\ pixel u (at_x (asc s) tu) (at_y (asc s) tu) /\ pixel v (at_x (asc s) tv) (at_y (asc s) tv).
  Proof.
    intros T p ps. revert p. induction ps as [|q ps IH]; intros p a tp E NE TP P; [congruence|].
    assert (IQ : In q w) by (rewrite E; apply in_or_app; right; right; left; reflexivity).
    destruct ps as [|r ps].
    - exists a, p, q, [], tp, 1%R. split; [exact E|]. split; [lra|]. split; [exact P|]. destruct at_end1 as [X1 Y1]. rewrite X1, Y1.
      assert (q = hi_end s); [|subst; apply pixel_self]. destruct (in_some _ _ IQ) as [p0 [ps0 EW]]. rewrite <- (w_last p0 ps0 EW). rewrite EW in E.
      destruct a as [|a0 a]; cbn [app] in E; [assert (ps0 = [q]) by congruence; subst; reflexivity|]. assert (E0 : ps0 = a ++ [p; q]) by congruence. rewrite E0. clear. induction a as [|b a IH]; [reflexivity|]. cbn [app]. destruct (a ++ [p; q]) eqn:F; [destruct a; discriminate|]. exact IH.
    - destruct (w_param q IQ) as [tq [TQ PQ]]. destruct (Rle_dec t tq) as [L|L].
      + exists a, p, q, (r :: ps), tp, tq. split; [exact E|]. split; [lra|]. auto.
      + apply (IH q (a ++ [p]) tq); [rewrite <- app_assoc; exact E|discriminate|lra|exact PQ].
  Qed.
  (* a point of the segment and the point of the piece *)
  Lemma part_within u v tu tv l : pixel u (at_x (asc s) tu) (at_y (asc s) tu) -> pixel v (at_x (asc s) tv) (at_y (asc s) tv) -> unit l ->
    within (IZR (px u) + l * (IZR (px v) - IZR (px u))) (IZR (py u) + l * (IZR (py v) - IZR (py u))) (at_x (asc s) (tu + l * (tv - tu))) (at_y (asc s) (tu + l * (tv - tu))).
  Proof.
    intros [U1 U2] [V1 V2] L. unfold within.
    assert (HX : (0 <= at_x (asc s) tu - IZR (px u) < 1)%R) by lra. assert (HX' : (0 <= at_x (asc s) tv - IZR (px v) < 1)%R) by lra.
    assert (HY : (0 <= at_y (asc s) tu - IZR (py u) < 1)%R) by lra. assert (HY' : (0 <= at_y (asc s) tv - IZR (py v) < 1)%R) by lra.
    pose proof (conv _ _ l HX HX' L) as CX. pose proof (conv _ _ l HY HY' L) as CY. unfold at_x, at_y in *.
    split; [replace (_ - _)%R with (IZR (px (s_low (asc s))) + tu * (IZR (px (s_high (asc s))) - IZR (px (s_low (asc s)))) - IZR (px u) + l * (IZR (px (s_low (asc s))) + tv * (IZR (px (s_high (asc s))) - IZR (px (s_low (asc s)))) - IZR (px v) - (IZR (px (s_low (asc s))) + tu * (IZR (px (s_high (asc s))) - IZR (px (s_low (asc s)))) - IZR (px u))))%R by ring; exact CX|].
    replace (_ - _)%R with (IZR (py (s_low (asc s))) + tu * (IZR (py (s_high (asc s))) - IZR (py (s_low (asc s)))) - IZR (py u) + l * (IZR (py (s_low (asc s))) + tv * (IZR (py (s_high (asc s))) - IZR (py (s_low (asc s)))) - IZR (py v) - (IZR (py (s_low (asc s))) + tu * (IZR (py (s_high (asc s))) - IZR (py (s_low (asc s)))) - IZR (py u))))%R by ring. exact CY.
  Qed.
  Lemma at_on t : (0 <= t <= 1)%R -> on_r s (at_x (asc s) t) (at_y (asc s) t).
  Proof. intros T. apply up_on, on_ron, at_ron. exact T. Qed.
  Lemma piece_near a u v b x y : w = a ++ u :: v :: b -> on_r (mk_seg u v) x y -> exists x' y', on_r s x' y' /\ within x y x' y'.
  Proof.
    intros E [l [L [-> ->]]]. cbn [s_low s_high]. destruct (w_pair a u v b E) as [N [tu [tv C]]]. destruct C as [A [B [D [_ [_ [PU [PV _]]]]]]].
    eexists _, _. split; [|apply (part_within u v tu tv l PU PV L)]. apply at_on.
    assert (0 <= l * (tv - tu))%R by (apply Rmult_le_pos; lra). assert (0 <= (1 - l) * (tv - tu))%R by (apply Rmult_le_pos; lra). lra.
  Qed.
  Lemma near_piece x' y' : s_low s <> s_high s -> on_r s x' y' -> exists a u v b x y, w = a ++ u :: v :: b /\ on_r (mk_seg u v) x y /\ within x y x' y'.
  Proof.
    intros N ON. apply up_on in ON. destruct ON as [t [T [-> ->]]]. fold (at_x (asc s) t) (at_y (asc s) t).
    destruct (in_some _ _ w_lo) as [p [ps EW]].
    assert (EP : p = lo_end s) by (apply (w_first p ps); exact EW).
    assert (NE : ps <> []).
    { intros ->. pose proof w_hi as H. rewrite EW in H. destruct H as [H|[]]. apply N. destruct (lo_hi_in s) as [[A B]|[A B]]; congruence. }
    destruct (w_cover t T p ps [] 0%R) as [a [u [v [b [tu [tv [E [TT [PU PV]]]]]]]]]; [rewrite EW; reflexivity|exact NE|lra|destruct at_end0 as [-> ->]; subst p; apply pixel_self|].
    exists a, u, v, b.
    destruct (Req_dec tu tv) as [Q|Q].
    - exists (IZR (px u)), (IZR (py u)). split; [exact E|]. split; [exists 0%R; cbn [s_low s_high]; lra|]. apply pixel_within. replace t with tu by lra. exact PU.
    - set (l := ((t - tu) / (tv - tu))%R). assert (L : unit l).
      { unfold unit, l. assert (0 < tv - tu)%R by lra. split; [apply Rmult_le_pos; [lra|left; apply Rinv_0_lt_compat; lra]|]. apply (Rmult_le_reg_r (tv - tu)); [lra|]. unfold Rdiv. rewrite Rmult_assoc, Rinv_l by lra. lra. }
      eexists _, _. split; [exact E|]. split; [exists l; split; [exact L|split; reflexivity]|]. cbn [s_low s_high].
      pose proof (part_within u v tu tv l PU PV L) as PW. replace (tu + l * (tv - tu))%R with t in PW by (unfold l; field; lra). exact PW.
  Qed.
  (* horizontal and vertical segments *)
  Lemma ron_conv p q x1 y1 x2 y2 x y : ron p q x1 y1 -> ron p q x2 y2 -> on x1 y1 x2 y2 x y -> ron p q x y.
  Proof.
    intros [t1 [T1 [<- <-]]] [t2 [T2 [<- <-]]] [l [L [<- <-]]]. exists (t1 + l * (t2 - t1))%R. unfold unit in *. split; [|split; ring].
    assert (0 <= l * t2)%R by (apply Rmult_le_pos; lra). assert (0 <= (1 - l) * t1)%R by (apply Rmult_le_pos; lra). assert (0 <= l * (1 - t2))%R by (apply Rmult_le_pos; lra). assert (0 <= (1 - l) * (1 - t1))%R by (apply Rmult_le_pos; lra). lra.
  Qed.
  Lemma w_axis c : px (s_low s) = px (s_high s) \/ py (s_low s) = py (s_high s) -> s_low s <> s_high s -> In c w -> ron (s_low s) (s_high s) (IZR (px c)) (IZR (py c)).
  Proof.
    intros A N C. apply w_passes in C. apply (proj1 (up_passes s c)) in C. apply passes_box in C. apply pt_on; [exact N| |exact C]. unfold inbox in C. unfold side, cross. cbn [s_low s_high].
    destruct A as [A|A]; rewrite A in *; [assert (px c = px (s_high s)) as -> by lia|assert (py c = py (s_high s)) as -> by lia]; ring.
  Qed.
  Lemma piece_axis a u v b x y : px (s_low s) = px (s_high s) \/ py (s_low s) = py (s_high s) -> w = a ++ u :: v :: b -> on_r (mk_seg u v) x y -> on_r s x y.
  Proof.
    intros A E ON. apply on_ron. apply on_ron in ON. cbn [s_low s_high] in ON. destruct (w_pair a u v b E) as [N _].
    apply (ron_conv _ _ (IZR (px u)) (IZR (py u)) (IZR (px v)) (IZR (py v))); [| |exact ON]; apply w_axis; try assumption; rewrite E; apply in_or_app; right; cbn [In]; auto.
  Qed.
End walk.

(* ---------- the result ---------- *)
Section result.
  Variables (l : list seg) (out : list (seg * Z)).
  Hypothesis small : forall s, In s l -> seg_small s.
  Hypothesis OUT : intersect_segments l = Ok out.
  (* a piece of the i-th segment *)
  Lemma in_pieces t i : In t (pieces i out) <-> In (t, i) out.
  Proof.
    unfold pieces. rewrite in_map_iff. split.
    - intros [[t' j] [E X]]. apply filter_In in X as [X J]. cbn [fst snd] in *. apply Z.eqb_eq in J. subst. exact X.
    - intros X. exists (t, i). split; [reflexivity|]. apply filter_In. split; [exact X|]. cbn [snd]. apply Z.eqb_refl.
  Qed.
  Lemma result_main : exists (hot : point -> Prop) (w : Z -> list point),
    (forall e, In e out -> 0 <= snd e < Z.of_nat (length l)) /\ StronglySorted Z.le (map snd out) /\
    (forall i s, 0 <= i -> nth_error l (Z.to_nat i) = Some s -> is_walk hot s (w i) /\ hot (s_low s) /\ hot (s_high s) /\
       (forall u v, In (mk_seg u v) (pieces i out) <-> exists a b, w i = a ++ u :: v :: b) /\
       path (lo_end s) (pieces i out) (hi_end s) /\ w i = lo_end s :: map s_high (pieces i out)) /\
    (forall s t, In s l -> In t l -> cross_hot hot (asc s) (asc t)) /\
    (forall c, hot c -> origin (map he_order (number_from 0 l)) c).
  Proof.
    destruct (snap_main l small) as [out' [hot [w [E [A [B [C [D [F H]]]]]]]]]. rewrite OUT in E. assert (out' = out) by congruence. subst out'.
    exists hot, w. split; [exact A|]. split; [exact B|]. split; [|split; assumption].
    intros i s I N. destruct (C i s I N) as [W [p [ps [WE FE]]]]. destruct (D s (nth_error_In _ _ N)) as [HL HH].
    assert (PE : pieces i out = map fst (chain p ps i)) by (unfold pieces; rewrite <- FE; reflexivity).
    pose proof (w_first hot s (w i) W HL HH p ps WE) as P1. pose proof (w_last hot s (w i) W HL HH p ps WE) as P2.
    split; [exact W|]. split; [exact HL|]. split; [exact HH|]. split; [|split].
    - intros u v. rewrite PE, in_map_iff, WE. split.
      + intros [e [EU X]]. apply chain_split in X. rewrite EU in X. exact X.
      + intros [a [b X]]. exists (mk_seg u v, i). split; [reflexivity|]. apply (split_chain p ps i a u v b X).
    - rewrite PE, <- P1, <- P2. apply chain_path.
    - rewrite PE, chain_highs, WE, P1. reflexivity.
  Qed.
  Lemma out_index e : In e out -> 0 <= snd e < Z.of_nat (length l) /\ exists s, nth_error l (Z.to_nat (snd e)) = Some s.
  Proof.
    intros X. destruct result_main as [hot [w [A _]]]. specialize (A e X). split; [exact A|]. destruct (nth_error l (Z.to_nat (snd e))) as [s|] eqn:N; [exists s; reflexivity|]. apply nth_error_None in N. lia.
  Qed.
  Lemma result_noded : noded (map fst out).
  Proof.
    destruct result_main as [hot [w [A [_ [C [F _]]]]]].
    assert (LK : forall t, In t (map fst out) -> exists s, In s l /\ directed (asc s) /\ exists tu tv, clink hot (asc s) (s_low t) (s_high t) tu tv).
    { intros t X. apply in_map_iff in X as [e [<- X]]. destruct (out_index e X) as [I [s N]]. exists s. split; [apply (nth_error_In _ _ N)|].
      destruct (C (snd e) s (proj1 I) N) as [W [HL [HH [PI _]]]].
      assert (IP : In (mk_seg (s_low (fst e)) (s_high (fst e))) (pieces (snd e) out)) by (rewrite seg_eta; apply in_pieces; rewrite <- surjective_pairing; exact X).
      apply PI in IP as [a [b IP]]. destruct (w_pair hot s (w (snd e)) W a _ _ b IP) as [NE K]. split; [apply up_directed; exact NE|exact K]. }
    intros s t x y S T OS OT. destruct (LK s S) as [s' [S1 [S2 S3]]]. destruct (LK t T) as [t' [T1 [T2 T3]]]. apply on_ron in OS, OT.
    destruct (chains_node hot (asc s') (asc t') (s_low s) (s_high s) (s_low t) (s_high t) S2 T2 (F s' t' S1 T1) S3 T3 x y OS OT) as [[EA EB]|[[P Q]|[P Q]]].
    - left. split; assumption.
    - right. left. destruct s as [a b], t as [c d]. cbn [s_low s_high] in *. congruence.
    - right. right. destruct s as [a b], t as [c d]. cbn [s_low s_high] in *. congruence.
  Qed.
  Lemma result_path n s : nth_error l n = Some s -> path (lo_end s) (pieces (Z.of_nat n) out) (hi_end s) /\ NoDup (lo_end s :: map s_high (pieces (Z.of_nat n) out)).
  Proof.
    intros N. destruct result_main as [hot [w [_ [_ [C _]]]]]. destruct (C (Z.of_nat n) s) as [W [HL [HH [_ [P E]]]]]; [lia|rewrite Nat2Z.id; exact N|].
    split; [exact P|]. rewrite <- E. apply (w_nodup hot s). exact W.
  Qed.
  Lemma result_near n s t x y : nth_error l n = Some s -> In t (pieces (Z.of_nat n) out) -> on_r t x y -> exists x' y', on_r s x' y' /\ within x y x' y'.
  Proof.
    intros N X ON. destruct result_main as [hot [w [_ [_ [C _]]]]]. destruct (C (Z.of_nat n) s) as [W [HL [HH [PI _]]]]; [lia|rewrite Nat2Z.id; exact N|].
    rewrite <- (seg_eta t) in X, ON. apply PI in X as [a [b X]]. apply (piece_near hot s (w (Z.of_nat n)) W a (s_low t) (s_high t) b); assumption.
  Qed.
  Lemma result_cover n s x' y' : nth_error l n = Some s -> s_low s <> s_high s -> on_r s x' y' -> exists t x y, In t (pieces (Z.of_nat n) out) /\ on_r t x y /\ within x y x' y'.
  Proof.
    intros N NE ON. destruct result_main as [hot [w [_ [_ [C _]]]]]. destruct (C (Z.of_nat n) s) as [W [HL [HH [PI _]]]]; [lia|rewrite Nat2Z.id; exact N|].
    destruct (near_piece hot s (w (Z.of_nat n)) W HL HH x' y' NE ON) as [a [u [v [b [x [y [E [O2 WI]]]]]]]]. exists (mk_seg u v), x, y. split; [apply PI; exists a, b; exact E|auto].
  Qed.
  Lemma result_axis n s t x y : nth_error l n = Some s -> px (s_low s) = px (s_high s) \/ py (s_low s) = py (s_high s) -> In t (pieces (Z.of_nat n) out) -> on_r t x y -> on_r s x y.
  Proof.
    intros N AX X ON. destruct result_main as [hot [w [_ [_ [C _]]]]]. destruct (C (Z.of_nat n) s) as [W [HL [HH [PI _]]]]; [lia|rewrite Nat2Z.id; exact N|].
    rewrite <- (seg_eta t) in X, ON. apply PI in X as [a [b X]]. apply (piece_axis hot s (w (Z.of_nat n)) W a (s_low t) (s_high t) b); assumption.
  Qed.
  (* the vertices of the pieces of a segment *)
  Lemma result_hot n s c : nth_error l n = Some s ->
    (In c (lo_end s :: map s_high (pieces (Z.of_nat n) out)) <->
     (exists m t, nth_error l m = Some t /\ In c (lo_end t :: map s_high (pieces (Z.of_nat m) out))) /\ exists x y, on_r s x y /\ within (IZR (px c)) (IZR (py c)) x y).
  Proof.
    intros N. destruct result_main as [hot [w [_ [_ [C _]]]]]. destruct (C (Z.of_nat n) s) as [W [HL [HH [_ [_ E]]]]]; [lia|rewrite Nat2Z.id; exact N|].
    assert (PA : passes s c <-> exists x y, on_r s x y /\ within (IZR (px c)) (IZR (py c)) x y).
    { unfold passes. split; intros [x [y [A B]]]; exists x, y; (split; [apply on_ron; exact A|apply pixel_within; exact B]). }
    rewrite <- E. split.
    - intros X. split; [exists n, s; split; [exact N|rewrite <- E; exact X]|]. apply PA. apply (proj2 W). exact X.
    - intros [[m [t [M X]]] PX]. apply (proj2 W). split; [|apply PA; exact PX].
      destruct (C (Z.of_nat m) t) as [W' [_ [_ [_ [_ E']]]]]; [lia|rewrite Nat2Z.id; exact M|]. rewrite <- E' in X. apply (proj2 W') in X. apply X.
  Qed.
  Lemma result_origin n s c : nth_error l n = Some s -> In c (lo_end s :: map s_high (pieces (Z.of_nat n) out)) ->
    (exists t, In t l /\ (c = s_low t \/ c = s_high t)) \/
    (exists i j t t' x y, i <> j /\ nth_error l i = Some t /\ nth_error l j = Some t' /\ on_r t x y /\ on_r t' x y /\ rounded c x y).
  Proof.
    intros N X. destruct result_main as [hot [w [_ [_ [C [_ H]]]]]]. destruct (C (Z.of_nat n) s) as [W [HL [HH [_ [_ E]]]]]; [lia|rewrite Nat2Z.id; exact N|].
    rewrite <- E in X. apply (proj2 W) in X. pose proof (H c (proj1 X)) as X1. clear X. rename X1 into X. destruct X as [X|[e [e' [x [y [X [X' [NE [[C1 C2] NR]]]]]]]]].
    - left. destruct (proj1 (an_end_he (number_from 0 l) c) X) as [[t i] [X0 Y]]. apply number_in in X0. exists t. split; [apply (nth_error_In _ _ (proj2 X0))|exact Y].
    - right. apply in_map_iff in X as [[t i] [<- X]]. apply in_map_iff in X' as [[t' j] [<- X']]. rewrite !he_is in *. cbn [fst snd] in *. apply number_in in X as [I X]. apply number_in in X' as [J X']. rewrite Z.sub_0_r in X, X'.
      exists (Z.to_nat i), (Z.to_nat j), t, t', x, y. split; [lia|]. split; [exact X|]. split; [exact X'|]. split; [apply up_on, on_ron; exact C1|]. split; [apply up_on, on_ron; exact C2|].
      unfold rounded. destruct NR as [NR|[[[V PX]|[V PX]] [_ NR]]]; [left; apply pixel_within; exact NR| |]; right; cbn [px py] in NR; rewrite minus_IZR in NR.
      + split; [rewrite PX; apply (vertical_x (asc t) x y V C1)|lra].
      + split; [rewrite PX; apply (vertical_x (asc t') x y V C2)|lra].
  Qed.
End result.
