(* What the boolean operations make of the properties on the two sides of the edges. *)
From Verif Require Import Base Units Outcome Scan90Spec Poly90Spec Poly90Model Poly90Proofs GeoSpec IvlModel RectModel SegModel PolyModel PolyEdge ScanBaseModel ScanBaseOab SnapModel SnapSpec SnapProofs SnapLoops ArbSpec ArbOrder ArbSums ArbModel ArbMaps ArbLess ArbLine ArbColumn ArbScan.
From Coq Require Import Reals Lra Sorting.Sorted Sorting.Permutation.

Lemma seg_dec (s t : seg) : {s = t} + {s <> t}.
Proof. destruct (eq_seg s t) eqn:H; [left; apply eq_seg_iff, H|right; intros K; apply eq_seg_iff in K; congruence]. Qed.
Lemma pick_seg (p : seg) (c : Z) vs : NoDup vs -> tot (fun v => if eq_seg p v then c else 0) vs = if in_dec seg_dec p vs then c else 0.
Proof.
  induction vs as [|v vs IH]; intros N; [reflexivity|]. inversion N as [|? ? N1 N2]; subst. cbn [tot]. rewrite IH by exact N2. clear IH.
  destruct (eq_seg p v) eqn:Q.
  - apply eq_seg_iff in Q. subst p. destruct (in_dec seg_dec v vs) as [K|K]; [contradiction|]. destruct (in_dec seg_dec v (v :: vs)) as [J|J]; [lia|]. exfalso. apply J. left. reflexivity.
  - assert (p <> v) as NE by (intros K; apply eq_seg_iff in K; congruence). destruct (in_dec seg_dec p vs) as [K|K], (in_dec seg_dec p (v :: vs)) as [J|J]; try lia; exfalso.
    + apply J. right. exact K.
    + destruct J as [J|J]; [symmetry in J|]; contradiction.
Qed.
Lemma tot_filter {A : Type} (c : A -> bool) f l : tot (fun a => if c a then f a else 0) l = tot f (filter c l).
Proof. induction l as [|a l IH]; [reflexivity|]. cbn [tot filter]. destruct (c a); cbn [tot]; lia. Qed.
(* numbers above y are above a greater number, too *)
Lemma gap (hs : list R) (y : R) : exists yy, (y < yy)%R /\ forall h, In h hs -> (h <= y \/ yy < h)%R.
Proof.
  induction hs as [|h hs [yy [Y H]]]; [exists (y + 1)%R; split; [lra|intros h []]|]. destruct (Rle_dec h y) as [K|K].
  - exists yy. split; [exact Y|]. intros z [<-|Z]; [left; exact K|apply H, Z].
  - exists (Rmin yy ((y + h) / 2))%R. split; [unfold Rmin; destruct (Rle_dec _ _); lra|]. intros z [<-|Z].
    + right. unfold Rmin. destruct (Rle_dec _ _); lra.
    + destruct (H z Z) as [J|J]; [left; exact J|right]. unfold Rmin. destruct (Rle_dec _ _); lra.
Qed.

Section bool.
  Variable l : list vprop.
  Hypothesis nod : noded (map fst l).
  Hypothesis ord : forall e, In e l -> ordered (fst e).
  Hypothesis clo : closed l.
  Let E : list seg := map fst l.
  Let ordE : forall s, In s E -> ordered s := ordE l ord.
  Variable F : (Z -> Z) -> Z.
  Hypothesis F_ext : forall d d', (forall k, d k = d' k) -> F d = F d'.
  Hypothesis F_0 : F (fun _ => 0) = 0.
  (* every edge once *)
  Definition edges : list seg := nodup seg_dec E.
  Lemma edges_in e : In e edges <-> In e E.
  Proof. apply nodup_In. Qed.
  Definition delta (e : seg) : Z := F (lside l e) - F (rside l e).

  Lemma own_tot (c : seg -> bool) k vs : NoDup vs -> (forall e, In e E -> (c e = true <-> In e vs)) -> (forall e, In e vs -> In e E) ->
    tot (own l k) vs = tot (fun f => if c (fst f) then wt k f else 0) l.
  Proof.
    intros N C _. unfold own. rewrite tot_swap. apply tot_ext. intros f Hf. rewrite pick_seg by exact N. pose proof (C (fst f) (in_map fst _ _ Hf)) as K.
    destruct (in_dec seg_dec (fst f) vs) as [J|J]; [rewrite (proj2 K J); reflexivity|]. destruct (c (fst f)); [exfalso; apply J, K; reflexivity|reflexivity].
  Qed.

  (* telescoping over edges from below *)
  Lemma tele n x' D : (IZR n < x' < IZR n + 1)%R -> StronglySorted lte D -> (forall e, In e D -> In e E /\ inr e x') -> (forall f e, In f E -> inr f x' -> In e D -> lte f e -> In f D) ->
    tot delta D = F (fun k => tot (own l k) D).
  Proof.
    intros NX S DE DC.
    assert (ND : NoDup D). { clear - S. induction S as [|e D S IH FF]; [constructor|]. constructor; [|exact IH]. intros K. rewrite Forall_forall in FF. apply (lte_irrefl e), FF, K. }
    assert (GEN : forall post pre, D = pre ++ post -> tot delta pre = F (fun k => tot (own l k) pre) -> tot delta D = F (fun k => tot (own l k) D)).
    { induction post as [|e post IH]; intros pre EQ H; [rewrite app_nil_r in EQ; rewrite EQ; exact H|].
      apply (IH (pre ++ [e])); [rewrite <- app_assoc; exact EQ|]. rewrite tot_app, H, tot_one.
      assert (Ie : In e D) by (rewrite EQ; apply in_or_app; right; left; reflexivity). destruct (DE e Ie) as [He Xe].
      assert (V : vertical_edge e = false) by (apply nv_vertical, (inr_nv _ _ Xe)).
      assert (BEF : forall f, In f pre -> lte f e).
      { clear - S EQ. rewrite EQ in S. clear EQ. induction pre as [|g pre IHp]; [intros f []|]. cbn [app] in S. apply StronglySorted_inv in S as [S FF]. rewrite Forall_forall in FF. intros f [<-|K]; [|apply IHp; assumption]. apply FF, in_or_app. right. left. reflexivity. }
      assert (AFT : forall f, In f post -> lte e f).
      { clear - S EQ. rewrite EQ in S. clear EQ. induction pre as [|g pre IHp]; cbn [app] in S; apply StronglySorted_inv in S as [S FF]; [|apply IHp, S]. rewrite Forall_forall in FF. intros f K. apply FF, K. }
      assert (CB : forall k, cumb l k e = tot (own l k) pre).
      { intros k. rewrite <- (cumb_at l nod ord clo k e x' He Xe). unfold depth_below. symmetry.
        apply (own_tot (fun f => spans_r f x' && rltb (height f x') (height e x')) k pre).
        - rewrite EQ in ND. clear - ND. induction pre as [|g pre IHp]; [constructor|]. cbn [app] in ND. inversion ND as [|? ? N1 N2]; subst. constructor; [|apply IHp, N2]. intros K. apply N1, in_or_app. left. exact K.
        - intros f Hf. rewrite andb_true_iff, spans_r_iff, rltb_iff. split.
          + intros [SP LT]. assert (Xf : inr f x').
            { split; [|lra]. destruct SP as [SP1 SP2]. destruct SP1 as [SP1|SP1]; [exact SP1|]. exfalso.
              destruct NX as [NX1 NX2]. rewrite <- SP1 in NX1, NX2. rewrite <- plus_IZR in NX2. apply lt_IZR in NX1. apply lt_IZR in NX2. lia. }
            assert (L : lte f e) by (exists x'; auto). pose proof (DC f e Hf Xf Ie L) as K. rewrite EQ in K. apply in_app_or in K as [K|[K|K]]; [exact K| |].
            * subst f. exfalso. lra.
            * exfalso. apply (lte_asym E nod ordE e f He Hf (AFT f K) L).
          + intros K. assert (In f D) as K' by (rewrite EQ; apply in_or_app; left; exact K). destruct (DE f K') as [_ Xf]. split; [unfold inr in Xf; lra|]. apply (lte_at E nod ordE f e x' Hf He (BEF f K) Xf Xe).
        - intros f K. apply DE. rewrite EQ. apply in_or_app. left. exact K. }
      unfold delta. rewrite (F_ext (rside l e) (fun k => tot (own l k) pre)) by (intros k; unfold rside; rewrite V; apply CB).
      rewrite (F_ext (lside l e) (fun k => tot (own l k) (pre ++ [e]))); [lia|]. intros k. unfold lside. rewrite V, tot_app, tot_one. unfold cum. rewrite CB. reflexivity. }
    apply (GEN D []); [reflexivity|]. cbn [tot]. symmetry. exact F_0.
  Qed.

  Lemma sort_lte x' D : NoDup D -> (forall e, In e D -> In e E /\ inr e x') -> exists D', Permutation D D' /\ StronglySorted lte D'.
  Proof.
    induction D as [|e D IH]; intros N DE; [exists []; split; [constructor|constructor]|]. inversion N as [|? ? N1 N2]; subst.
    destruct IH as [D' [P S]]; [exact N2|intros f K; apply DE; right; exact K|]. destruct (DE e (or_introl eq_refl)) as [He Xe].
    assert (DE' : forall f, In f D' -> In f E /\ inr f x' /\ f <> e).
    { intros f K. apply (Permutation_in _ (Permutation_sym P)) in K. destruct (DE f (or_intror K)) as [A B]. repeat split; try apply B; [exact A|]. intros ->. contradiction. }
    assert (INS : exists D'', Permutation (e :: D') D'' /\ StronglySorted lte D'').
    { clear - nod S DE' He Xe ord ordE. induction S as [|f D' S IH FF]; [exists [e]; split; [reflexivity|repeat constructor]|].
      destruct (DE' f (or_introl eq_refl)) as [Hf [Xf Ne]]. destruct (lte_total E nod ordE e f x' He Hf Xe Xf) as [K|[K|K]]; [contradiction| |].
      - exists (e :: f :: D'). split; [reflexivity|]. constructor; [constructor; assumption|]. constructor; [exact K|]. rewrite Forall_forall in *. intros g G. destruct (DE' g (or_intror G)) as [Hg [Xg _]].
        apply (lte_trans E nod ordE e f g x'); auto.
      - destruct IH as [D'' [P1 P2]]; [intros g G; apply DE'; right; exact G|]. exists (f :: D''). split; [transitivity (f :: e :: D'); [apply perm_swap|constructor; exact P1]|].
        constructor; [exact P2|]. rewrite Forall_forall in *. intros g G. apply (Permutation_in _ (Permutation_sym P1)) in G. destruct G as [<-|G]; [exact K|]. apply FF, G. }
    destruct INS as [D'' [P1 P2]]. exists D''. split; [|exact P2]. rewrite P. exact P1.
  Qed.

  Lemma tot_permut {A : Type} (f : A -> Z) a b : Permutation a b -> tot f a = tot f b.
  Proof. induction 1; cbn [tot]; lia. Qed.

  Lemma sum_cond (c : seg -> bool) n x' : (IZR n < x' < IZR n + 1)%R ->
    (forall e, In e E -> c e = true -> inr e x') ->
    (forall f e, In f E -> In e E -> inr f x' -> c e = true -> lte f e -> c f = true) ->
    tot (fun e => if c e then delta e else 0) edges = F (fun k => tot (fun f => if c (fst f) then wt k f else 0) l).
  Proof.
    intros NX CI CD. rewrite tot_filter. set (D := filter c edges).
    assert (DI : forall e, In e D <-> In e E /\ c e = true) by (intros e; unfold D; rewrite filter_In, edges_in; reflexivity).
    assert (ND : NoDup D) by (apply NoDup_filter, NoDup_nodup).
    destruct (sort_lte x' D ND) as [D' [P S]]; [intros e K; apply DI in K as [A B]; split; [exact A|apply CI; assumption]|].
    assert (DI' : forall e, In e D' <-> In e E /\ c e = true).
    { intros e. rewrite <- DI. split; apply Permutation_in; [apply Permutation_sym, P|exact P]. }
    rewrite (tot_permut _ _ _ P). rewrite (tele n x' D' NX S).
    - apply F_ext. intros k. apply own_tot; [apply (Permutation_NoDup P ND)| |].
      + intros e He. rewrite DI'. tauto.
      + intros e K. apply DI' in K. apply K.
    - intros e K. apply DI' in K as [A B]. split; [exact A|apply CI; assumption].
    - intros f e Hf Xf K L. apply DI' in K as [A B]. apply DI'. split; [exact Hf|]. apply (CD f e); assumption.
  Qed.

  Lemma slab_r x : exists n, (IZR n <= x < IZR n + 1)%R.
  Proof. destruct (archimed x) as [A B]. exists (Reals.Rdefinitions.up x - 1). rewrite minus_IZR. lra. Qed.
  Lemma slab_l x : exists n, (IZR n < x <= IZR n + 1)%R.
  Proof. destruct (archimed (- x)) as [A B]. exists (- Reals.Rdefinitions.up (- x)). rewrite opp_IZR. lra. Qed.
  Lemma into_r a n x : (IZR n <= x < IZR n + 1)%R -> ((IZR a <= x)%R <-> a <= n).
  Proof. intros [A B]. split; intros H; [|apply IZR_le in H; lra]. assert (IZR a < IZR (n + 1))%R as K by (rewrite plus_IZR; lra). apply lt_IZR in K. lia. Qed.
  Lemma into_l a n x : (IZR n < x <= IZR n + 1)%R -> ((IZR a < x)%R <-> a <= n).
  Proof. intros [A B]. split; intros H; [|apply IZR_le in H; lra]. assert (IZR a < IZR (n + 1))%R as K by (rewrite plus_IZR; lra). apply lt_IZR in K. lia. Qed.
  Lemma spans_in_r s n x x' : (IZR n <= x < IZR n + 1)%R -> (IZR n < x' < IZR n + 1)%R -> (spans_r s x = true <-> inr s x').
  Proof.
    intros X X'. rewrite spans_r_iff. unfold inr. pose proof (into_r (px (s_low s)) n x X) as A. pose proof (into_r (px (s_high s)) n x X) as B.
    assert (XX : (IZR n <= x' < IZR n + 1)%R) by lra. assert (XL : (IZR n < x' <= IZR n + 1)%R) by lra. pose proof (into_l (px (s_low s)) n x' XL) as C. pose proof (into_r (px (s_high s)) n x' XX) as D.
    split; intros [K L]; split.
    - apply C, A, K.
    - apply Rnot_le_lt. intros M. apply D, B in M. lra.
    - apply A, C, K.
    - apply Rnot_le_lt. intros M. apply B, D in M. lra.
  Qed.
  Lemma spans_in_l s n x x' : (IZR n < x <= IZR n + 1)%R -> (IZR n < x' < IZR n + 1)%R -> (spans_l s x = true <-> inr s x').
  Proof.
    intros X X'. rewrite spans_l_iff. unfold inr. pose proof (into_l (px (s_low s)) n x X) as A. pose proof (into_l (px (s_high s)) n x X) as B.
    assert (XX : (IZR n <= x' < IZR n + 1)%R) by lra. assert (XL : (IZR n < x' <= IZR n + 1)%R) by lra. pose proof (into_l (px (s_low s)) n x' XL) as C. pose proof (into_r (px (s_high s)) n x' XX) as D.
    split; intros [K L]; split.
    - apply C, A, K.
    - apply Rnot_le_lt. intros M. apply D, B in M. lra.
    - apply A, C, K.
    - apply Rnot_lt_le. intros M. apply B, D in M. lra.
  Qed.
  Lemma sum_r x (p : R -> bool) : (forall a b, (a <= b)%R -> p b = true -> p a = true) ->
    tot (fun e => if spans_r e x && p (height e x) then delta e else 0) edges = F (fun k => tot (fun f => if spans_r (fst f) x && p (height (fst f) x) then wt k f else 0) l).
  Proof.
    intros MP. destruct (slab_r x) as [n N]. set (x' := (IZR n + / 2)%R). assert (N' : (IZR n < x' < IZR n + 1)%R) by (unfold x'; lra).
    apply (sum_cond (fun e => spans_r e x && p (height e x)) n x' N').
    - intros e He H. apply andb_true_iff in H as [H _]. apply (spans_in_r e n x x' N N'), H.
    - intros f e Hf He Xf H L. apply andb_true_iff in H as [H1 H2]. apply andb_true_iff. pose proof (proj2 (spans_in_r f n x x' N N') Xf) as Sf. split; [exact Sf|].
      refine (MP _ _ _ H2). apply (lte_le E nod ordE f e x Hf He L); [apply spans_r_iff in Sf; unfold inc; lra|apply spans_r_iff in H1; unfold inc; lra].
  Qed.
  Lemma sum_l x (p : R -> bool) : (forall a b, (a <= b)%R -> p b = true -> p a = true) ->
    tot (fun e => if spans_l e x && p (height e x) then delta e else 0) edges = F (fun k => tot (fun f => if spans_l (fst f) x && p (height (fst f) x) then wt k f else 0) l).
  Proof.
    intros MP. destruct (slab_l x) as [n N]. set (x' := (IZR n + / 2)%R). assert (N' : (IZR n < x' < IZR n + 1)%R) by (unfold x'; lra).
    apply (sum_cond (fun e => spans_l e x && p (height e x)) n x' N').
    - intros e He H. apply andb_true_iff in H as [H _]. apply (spans_in_l e n x x' N N'), H.
    - intros f e Hf He Xf H L. apply andb_true_iff in H as [H1 H2]. apply andb_true_iff. pose proof (proj2 (spans_in_l f n x x' N N') Xf) as Sf. split; [exact Sf|].
      refine (MP _ _ _ H2). apply (lte_le E nod ordE f e x Hf He L); [apply spans_l_iff in Sf; unfold inc; lra|apply spans_l_iff in H1; unfold inc; lra].
  Qed.
  Lemma below_mono y a b : (a <= b)%R -> rltb b y = true -> rltb a y = true.
  Proof. rewrite !rltb_iff. lra. Qed.
  Lemma above_mono y a b : (a <= b)%R -> rleb b y = true -> rleb a y = true.
  Proof. rewrite !rleb_iff. lra. Qed.

  (* across vertical edges *)
  Lemma pick_edge e (f : seg -> Z) vs : NoDup vs -> In e vs -> tot (fun v => if eq_seg v e then f v else 0) vs = f e.
  Proof.
    induction vs as [|v vs IH]; intros N K; [destruct K|]. inversion N as [|? ? N1 N2]; subst. cbn [tot]. destruct (seg_dec v e) as [->|NE].
    - rewrite (proj2 (eq_seg_iff e e) eq_refl). rewrite tot_zero; [lia|]. intros w W. destruct (eq_seg w e) eqn:Q; [|reflexivity]. apply eq_seg_iff in Q. subst w. contradiction.
    - destruct (eq_seg v e) eqn:Q; [apply eq_seg_iff in Q; contradiction|]. destruct K as [K|K]; [contradiction|]. rewrite (IH N2 K). lia.
  Qed.
  Lemma sum_v X h : tot (fun e => if vcov X h e then delta e else 0) edges = F (fun k => depth_below_left l k (IZR X) h) - F (fun k => depth_below l k (IZR X) h).
  Proof.
    destruct (existsb (vcov X h) E) eqn:Q.
    - apply existsb_exists in Q as [e [He V]]. pose proof V as V'. apply vcov_iff in V' as [A [B C]].
      rewrite (tot_ext _ (fun v => if eq_seg v e then delta v else 0)).
      2:{ intros f Hf. apply edges_in in Hf. destruct (seg_dec f e) as [->|NE]; [rewrite V, (proj2 (eq_seg_iff e e) eq_refl); reflexivity|].
          destruct (eq_seg f e) eqn:Q; [apply eq_seg_iff in Q; contradiction|]. destruct (vcov X h f) eqn:Vf; [|reflexivity]. exfalso. apply NE. apply vcov_iff in Vf as [A' [B' C']].
          apply (overlap l nod ord e f He Hf); [apply vertical_edge_iff; congruence|apply vertical_edge_iff; congruence|congruence|apply lt_IZR; lra|apply lt_IZR; lra]. }
      rewrite pick_edge; [|apply NoDup_nodup|apply edges_in, He]. assert (Ve : vertical_edge e = true) by (apply vertical_edge_iff; congruence). unfold delta.
      rewrite (F_ext (lside l e) (fun k => depth_below_left l k (IZR X) h)); [rewrite (F_ext (rside l e) (fun k => depth_below l k (IZR X) h)); [reflexivity|]|]; intros k.
      + unfold rside. rewrite Ve, <- A. symmetry. apply (along_vertical_r l nod ord k e h He Ve C).
      + unfold lside. rewrite Ve, <- A. symmetry. apply (along_vertical_l l nod ord k e h He Ve C).
    - rewrite tot_zero; [|intros e He; apply edges_in in He; destruct (vcov X h e) eqn:V; [|reflexivity]; exfalso; rewrite <- not_true_iff_false in Q; apply Q, existsb_exists; exists e; split; assumption].
      rewrite (F_ext (fun k => depth_below l k (IZR X) h) (fun k => depth_below_left l k (IZR X) h)); [lia|]. intros k. rewrite (green l ord clo), (vert_none l); [lia|].
      intros e He A B C. rewrite <- not_true_iff_false in Q. apply Q, existsb_exists. exists e. split; [exact He|]. apply vcov_iff. auto.
  Qed.

  (* as much of the new edges leaves a point as comes to it *)
  Lemma delta_closed v : tot (fun e => if eq_pt (s_low e) v then delta e else 0) edges = tot (fun e => if eq_pt (s_high e) v then delta e else 0) edges.
  Proof.
    destruct v as [X y]. destruct (existsb (fun e => eq_pt (s_low e) (mk_pt X y) || eq_pt (s_high e) (mk_pt X y)) E) eqn:VX.
    2:{ assert (forall e, In e edges -> eq_pt (s_low e) (mk_pt X y) = false /\ eq_pt (s_high e) (mk_pt X y) = false) as N.
        { intros e He. apply edges_in in He. rewrite <- not_true_iff_false in VX. apply orb_false_iff. apply not_true_iff_false. intros K. apply VX, existsb_exists. exists e. split; assumption. }
        rewrite !tot_zero; [reflexivity| |]; intros e He; destruct (N e He) as [A B]; [rewrite B|rewrite A]; reflexivity. }
    assert (V : vertex l X y). { apply existsb_exists in VX as [e [He K]]. exists e. split; [exact He|]. apply orb_true_iff in K as [K|K]; apply eq_pt_iff in K; auto. }
    destruct (gap (map (fun e => height e (IZR X)) E ++ map (fun e => IZR (py (s_low e))) E ++ map (fun e => IZR (py (s_high e))) E) (IZR y)) as [h [Hh G]].
    assert (G1 : forall e, In e E -> (height e (IZR X) <= IZR y \/ h < height e (IZR X))%R) by (intros e He; apply G, in_or_app; left; apply (in_map (fun e => height e (IZR X))), He).
    assert (G2 : forall e, In e E -> (IZR (py (s_low e)) <= IZR y \/ h < IZR (py (s_low e)))%R) by (intros e He; apply G, in_or_app; right; apply in_or_app; left; apply (in_map (fun e => IZR (py (s_low e)))), He).
    assert (G3 : forall e, In e E -> (IZR (py (s_high e)) <= IZR y \/ h < IZR (py (s_high e)))%R) by (intros e He; apply G, in_or_app; right; apply in_or_app; right; apply (in_map (fun e => IZR (py (s_high e)))), He).
    assert (PT : forall p, eq_pt p (mk_pt X y) = true <-> px p = X /\ py p = y) by (intros p; unfold eq_pt; cbn [px py]; rewrite andb_true_iff, !Z.eqb_eq; reflexivity).
    destruct V as [w [Hw W]]. assert (OW : on_r w (IZR X) (IZR y)) by (destruct W as [W|W]; [pose proof (on_low w) as O|pose proof (on_high w) as O]; rewrite W in O; exact O).
    (* edges that pass through the vertex begin or end there *)
    assert (THR : forall e, In e E -> px (s_low e) < X < px (s_high e) -> height e (IZR X) = IZR y -> False).
    { intros e He I HH. assert (Ir : inr e (IZR X)) by (split; apply IZR_lt; lia). assert (w = e) as -> by (apply (touch E nod ordE e w (IZR X) He Hw Ir); rewrite HH; exact OW). destruct W as [W|W]; rewrite W in I; cbn [px] in I; lia. }
    assert (LO : tot (fun e => if eq_pt (s_low e) (mk_pt X y) then delta e else 0) edges =
      (tot (fun e => if spans_r e (IZR X) && rltb (height e (IZR X)) h then delta e else 0) edges - tot (fun e => if spans_r e (IZR X) && rltb (height e (IZR X)) (IZR y) then delta e else 0) edges) + tot (fun e => if vcov X h e then delta e else 0) edges).
    { rewrite <- tot_sub, <- tot_add. apply tot_ext. intros e He. apply edges_in in He. pose proof (ordE e He) as O. apply ordered_iff in O. destruct (Z.eq_dec (px (s_low e)) (px (s_high e))) as [VE|NV].
      - assert (spans_r e (IZR X) = false) as -> by (apply not_true_iff_false; intros K; apply spans_rz in K; lia). cbn [andb].
        assert (eq_pt (s_low e) (mk_pt X y) = vcov X h e) as ->; [|destruct (vcov X h e); lia]. apply ArbSums.bool_eq. rewrite PT, vcov_iff. split.
        + intros [A B]. split; [exact A|]. split; [congruence|]. rewrite B. split; [exact Hh|]. destruct (G3 e He) as [K|K]; [|lra]. apply le_IZR in K. lia.
        + intros [A [B [C D]]]. split; [exact A|]. destruct (G2 e He) as [K|K]; [|lra]. apply le_IZR in K. destruct (Z.eq_dec (py (s_low e)) y) as [J|J]; [exact J|]. exfalso.
          apply (vertex_inside l nod ord X y e); [exists w; auto|exact He|apply vertical_edge_iff; exact VE|exact A|lia|]. destruct (G3 e He) as [M|M]; [lra|]. apply lt_IZR. lra.
      - assert (vcov X h e = false) as -> by (apply not_true_iff_false; intros K; apply vcov_iff in K; lia).
        destruct (spans_r e (IZR X)) eqn:SP; cbn [andb].
        + apply spans_rz in SP. destruct (Z.eq_dec (px (s_low e)) X) as [J|J].
          * assert (height e (IZR X) = IZR (py (s_low e))) as -> by (rewrite <- J; apply height_low). destruct (Z.eq_dec (py (s_low e)) y) as [M|M].
            -- rewrite (proj2 (PT (s_low e))) by auto. rewrite M. rewrite (proj2 (rltb_iff _ _) Hh). assert (rltb (IZR y) (IZR y) = false) as -> by (apply not_true_iff_false; rewrite rltb_iff; lra). lia.
            -- assert (eq_pt (s_low e) (mk_pt X y) = false) as -> by (apply not_true_iff_false; rewrite PT; tauto).
               assert (rltb (IZR (py (s_low e))) h = rltb (IZR (py (s_low e))) (IZR y)) as ->; [|destruct (rltb (IZR (py (s_low e))) (IZR y)); lia].
               apply ArbSums.bool_eq. rewrite !rltb_iff. split; [|lra]. intros K. destruct (G2 e He) as [N|N]; [|lra]. apply IZR_lt. apply le_IZR in N. lia.
          * assert (eq_pt (s_low e) (mk_pt X y) = false) as -> by (apply not_true_iff_false; rewrite PT; tauto).
            assert (rltb (height e (IZR X)) h = rltb (height e (IZR X)) (IZR y)) as ->; [|destruct (rltb (height e (IZR X)) (IZR y)); lia].
            apply ArbSums.bool_eq. rewrite !rltb_iff. split; [|lra]. intros K. destruct (G1 e He) as [[N|N]|N]; [exact N| |lra]. exfalso. apply (THR e He); [lia|exact N].
        + assert (eq_pt (s_low e) (mk_pt X y) = false) as ->; [|lia]. apply not_true_iff_false. rewrite PT. intros [A B]. rewrite <- not_true_iff_false in SP. apply SP, spans_rz. lia. }
    assert (HI : tot (fun e => if eq_pt (s_high e) (mk_pt X y) then delta e else 0) edges =
      (tot (fun e => if spans_l e (IZR X) && rltb (height e (IZR X)) h then delta e else 0) edges - tot (fun e => if spans_l e (IZR X) && rltb (height e (IZR X)) (IZR y) then delta e else 0) edges) + tot (fun e => if vcov X (IZR y) e then delta e else 0) edges).
    { rewrite <- tot_sub, <- tot_add. apply tot_ext. intros e He. apply edges_in in He. pose proof (ordE e He) as O. apply ordered_iff in O. destruct (Z.eq_dec (px (s_low e)) (px (s_high e))) as [VE|NV].
      - assert (spans_l e (IZR X) = false) as -> by (apply not_true_iff_false; intros K; apply spans_lz in K; lia). cbn [andb].
        assert (eq_pt (s_high e) (mk_pt X y) = vcov X (IZR y) e) as ->; [|destruct (vcov X (IZR y) e); lia]. apply ArbSums.bool_eq. rewrite PT, vcov_iff. split.
        + intros [A B]. split; [congruence|]. split; [exact A|]. rewrite B. split; [apply IZR_lt; lia|lra].
        + intros [A [B [C D]]]. split; [exact B|]. apply lt_IZR in C. apply le_IZR in D. destruct (Z.eq_dec (py (s_high e)) y) as [J|J]; [exact J|]. exfalso.
          apply (vertex_inside l nod ord X y e); [exists w; auto|exact He|apply vertical_edge_iff; exact VE|exact A|lia|lia].
      - assert (vcov X (IZR y) e = false) as -> by (apply not_true_iff_false; intros K; apply vcov_iff in K; lia).
        destruct (spans_l e (IZR X)) eqn:SP; cbn [andb].
        + apply spans_lz in SP. destruct (Z.eq_dec (px (s_high e)) X) as [J|J].
          * assert (height e (IZR X) = IZR (py (s_high e))) as -> by (rewrite <- J; apply height_high; lia). destruct (Z.eq_dec (py (s_high e)) y) as [M|M].
            -- rewrite (proj2 (PT (s_high e))) by auto. rewrite M. rewrite (proj2 (rltb_iff _ _) Hh). assert (rltb (IZR y) (IZR y) = false) as -> by (apply not_true_iff_false; rewrite rltb_iff; lra). lia.
            -- assert (eq_pt (s_high e) (mk_pt X y) = false) as -> by (apply not_true_iff_false; rewrite PT; tauto).
               assert (rltb (IZR (py (s_high e))) h = rltb (IZR (py (s_high e))) (IZR y)) as ->; [|destruct (rltb (IZR (py (s_high e))) (IZR y)); lia].
               apply ArbSums.bool_eq. rewrite !rltb_iff. split; [|lra]. intros K. destruct (G3 e He) as [N|N]; [|lra]. apply IZR_lt. apply le_IZR in N. lia.
          * assert (eq_pt (s_high e) (mk_pt X y) = false) as -> by (apply not_true_iff_false; rewrite PT; tauto).
            assert (rltb (height e (IZR X)) h = rltb (height e (IZR X)) (IZR y)) as ->; [|destruct (rltb (height e (IZR X)) (IZR y)); lia].
            apply ArbSums.bool_eq. rewrite !rltb_iff. split; [|lra]. intros K. destruct (G1 e He) as [[N|N]|N]; [exact N| |lra]. exfalso. apply (THR e He); [lia|exact N].
        + assert (eq_pt (s_high e) (mk_pt X y) = false) as ->; [|lia]. apply not_true_iff_false. rewrite PT. intros [A B]. rewrite <- not_true_iff_false in SP. apply SP, spans_lz. lia. }
    rewrite LO, HI, !sum_v.
    rewrite (sum_r (IZR X) (fun z => rltb z h)) by (apply below_mono). rewrite (sum_r (IZR X) (fun z => rltb z (IZR y))) by (apply below_mono).
    rewrite (sum_l (IZR X) (fun z => rltb z h)) by (apply below_mono). rewrite (sum_l (IZR X) (fun z => rltb z (IZR y))) by (apply below_mono).
    fold (depth_below l) (depth_below_left l). unfold depth_below, depth_below_left. lia.
  Qed.
End bool.
