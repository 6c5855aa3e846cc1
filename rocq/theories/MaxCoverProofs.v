(* The walk over the graph of slabs writes exactly the maximal rectangles. *)
From Coq Require Import Permutation.
From Verif Require Import Base Scan90Spec VertexLemmas GeoSpec IvlModel Set90Spec Set90Model Set90Proofs Set90Cor
  RectFormSpec RectFormModel RectFormProofs RectFormCor MaxCoverSpec MaxCoverModel MaxCoverDag MaxCoverWalk MaxCoverOrder.

(* ---------- rectangles in the frame of the scan line ---------- *)
Definition scell (r : srect) (x y : Z) : Prop := s_ml r <= x < s_mh r /\ s_lo r <= y < s_hi r.
Definition sinside (P : Z -> Z -> Prop) (r : srect) : Prop := forall x y, scell r x y -> P x y.
Definition smaximal (P : Z -> Z -> Prop) (r : srect) : Prop :=
  sr_ne r /\ sinside P r /\
  forall q, sr_ne q -> sinside P q -> s_ml q <= s_ml r -> s_mh r <= s_mh q -> s_lo q <= s_lo r -> s_hi r <= s_hi q -> q = r.
Definition sslab (P : Z -> Z -> Prop) (r : srect) : Prop := vslab P (to_rect Vertical r).

Lemma sslab_unique P r q x y : sslab P r -> sslab P q -> scell r x y -> scell q x y -> r = q.
Proof.
  intros A B C D. pose proof (vslab_unique P _ _ x y A B) as E. unfold scell in *.
  assert (Q : to_rect Vertical r = to_rect Vertical q).
  { apply E; unfold in_rect, to_rect; cbn [xl xh yl yh]; lia. }
  destruct r as [a b c d], q as [a' b' c' d']. cbn [to_rect s_lo s_hi s_ml s_mh] in Q. congruence.
Qed.
Lemma sslab_run P r x : sslab P r -> s_ml r <= x < s_mh r -> vrun P x (s_lo r) (s_hi r).
Proof. intros [_ [H _]] L. cbn [to_rect xl xh yl yh] in H. apply H. exact L. Qed.
Lemma sslab_ne P r : sslab P r -> sr_ne r.
Proof.
  intros S. pose proof S as [H _]. cbn [to_rect xl xh] in H. split; [|exact H].
  destruct (sslab_run P r (s_ml r) S) as [L _]; lia.
Qed.
Lemma sr_ext a b : s_lo a = s_lo b -> s_hi a = s_hi b -> s_ml a = s_ml b -> s_mh a = s_mh b -> a = b.
Proof. destruct a as [a1 a2 a3 a4], b as [b1 b2 b3 b4]. cbn [s_lo s_hi s_ml s_mh]. congruence. Qed.

Section Geo.
Variable P : Z -> Z -> Prop.
Variable ns : list srect.
Hypothesis SL : forall a, In a ns -> sslab P a.
Hypothesis CV : forall x y, P x y -> exists a, In a ns /\ scell a x y.

(* the slab that holds a column of cells *)
Lemma column_slab x l h : l < h -> (forall y, l <= y < h -> P x y) ->
  exists n a, nth_error ns n = Some a /\ s_ml a <= x < s_mh a /\ s_lo a <= l /\ h <= s_hi a.
Proof.
  intros L H. destruct (CV x l) as [a [Ha [C1 C2]]]; [apply H; lia|].
  destruct (In_nth_error _ _ Ha) as [n En]. exists n, a. split; [exact En|]. split; [exact C1|]. split; [lia|].
  destruct (sslab_run P a x (SL a Ha) C1) as [_ [_ [_ N]]].
  destruct (Z_lt_ge_dec (s_hi a) h) as [Q|Q]; [|lia]. exfalso. apply N, H. lia.
Qed.
Lemma nth_slab n a : nth_error ns n = Some a -> sslab P a.
Proof. intros E. apply SL. exact (nth_error_In _ _ E). Qed.

Variable edges : list (nat * nat).
Hypothesis OK : nodes_ok ns.
Hypothesis KIDS : forall p q, In q (kids edges p) <-> dag_rel ns p q.

(* the cells of a chain *)
Lemma chain_geo n0 n i : chain ns edges n0 n i -> forall r0 r, nth_error ns n0 = Some r0 -> nth_error ns n = Some r ->
  nonempty i /\ s_ml r0 < s_mh r /\ s_ml r0 <= s_ml r /\
  (forall x y, s_ml r0 <= x < s_mh r -> lo i <= y < hi i -> P x y) /\
  (exists a, In a ns /\ s_ml r0 <= s_ml a /\ s_mh a <= s_mh r /\ s_lo a = lo i) /\
  (exists a, In a ns /\ s_ml r0 <= s_ml a /\ s_mh a <= s_mh r /\ s_hi a = hi i).
Proof.
  intros C. induction C as [q E|m j c rc C IH K E N]; intros r0 r E0 Er.
  - assert (r0 = q) by congruence. assert (r = q) by congruence. subst r0 r. clear E0 Er.
    pose proof (nth_slab _ _ E) as S. destruct (sslab_ne P q S) as [N1 N2]. unfold nonempty, sr_ivl. cbn [lo hi].
    split; [exact N1|]. split; [exact N2|]. split; [lia|]. split.
    { intros x y Hx Hy. destruct (sslab_run P q x S Hx) as [_ [R _]]. apply R. exact Hy. }
    apply nth_error_In in E. split; exists q; (split; [exact E|]); split; try lia.
  - assert (r = rc) by congruence. subst r. clear Er. apply KIDS in K. destruct K as [a [b [Ea [Eb [P1 [P2 P3]]]]]].
    assert (a = rc) by congruence. subst a. clear Ea. destruct (IH r0 b E0 Eb) as [G1 [G2 [G3 [G4 [[a1 [A1 [A2 [A3 A4]]]] [a2 [B1 [B2 [B3 B4]]]]]]]]].
    pose proof (nth_slab _ _ E) as S. destruct (sslab_ne P rc S) as [N1 N2].
    unfold nonempty, inter, sr_ivl in *. cbn [lo hi] in *.
    split; [exact N|]. split; [lia|]. split; [lia|]. split; [|split].
    + intros x y Hx Hy. destruct (Z_lt_ge_dec x (s_mh b)) as [Q|Q]; [apply G4; lia|].
      destruct (sslab_run P rc x S) as [_ [R _]]; [lia|]. apply R. lia.
    + apply nth_error_In in E. destruct (Z_le_gt_dec (s_lo rc) (lo j)) as [Q|Q].
      * exists a1. split; [exact A1|]. lia.
      * exists rc. split; [exact E|]. lia.
    + apply nth_error_In in E. destruct (Z_le_gt_dec (hi j) (s_hi rc)) as [Q|Q].
      * exists a2. split; [exact B1|]. lia.
      * exists rc. split; [exact E|]. lia.
Qed.

(* what is written is maximal *)
Lemma seen_maximal n0 n i o : seen ns edges n0 n i o -> smaximal P o.
Proof.
  intros [r0 [r [E0 [Er [C [St [Sp ->]]]]]]].
  destruct (chain_geo n0 n i C r0 r E0 Er) as [G1 [G2 [_ [G4 [[a1 [A1 [A2 [A3 A4]]]] [a2 [B1 [B2 [B3 B4]]]]]]]]].
  unfold nonempty in G1. split; [split; cbn [s_lo s_hi s_ml s_mh]; assumption|].
  split; [intros x y [H1 H2]; cbn [s_lo s_hi s_ml s_mh] in *; apply G4; assumption|].
  cbn [s_lo s_hi s_ml s_mh]. intros q Nq Iq Q1 Q2 Q3 Q4.
  pose proof (nth_slab _ _ E0) as S0. pose proof (nth_slab _ _ Er) as Sr.
  assert (X1 : s_ml q = s_ml r0).
  { destruct (Z.eq_dec (s_ml q) (s_ml r0)) as [X|X]; [exact X|]. exfalso.
    destruct (column_slab (s_ml r0 - 1) (lo i) (hi i) G1) as [p [b [Eb [L1 [L2 L3]]]]].
    { intros y Hy. apply Iq. split; lia. }
    destruct (chain_geo n0 n i C r0 r E0 Er) as [_ [_ [G3 _]]].
    assert (W0 : s_lo r0 <= lo i /\ hi i <= s_hi r0).
    { clear -C E0 OK KIDS. induction C as [z E|m j c rc C IH K E N]; [assert (z = r0) by congruence; subst; cbn [sr_ivl lo hi]; lia|].
      cbn [inter lo hi]. lia. }
    assert (M : s_mh b = s_ml r0).
    { destruct (Z.eq_dec (s_mh b) (s_ml r0)) as [M|M]; [exact M|]. exfalso.
      destruct (sslab_ne P r0 S0) as [_ N0].
      assert (b = r0); [|subst b; lia].
      apply (sslab_unique P b r0 (s_ml r0) (lo i) (nth_slab _ _ Eb) S0); unfold scell; lia. }
    assert (Kp : In n0 (kids edges p)).
    { apply KIDS. exists r0, b. split; [exact E0|]. split; [exact Eb|]. unfold pc. lia. }
    apply (Sp p b Kp Eb). unfold within, sr_ivl. cbn [lo hi]. lia. }
  assert (X2 : s_mh q = s_mh r).
  { destruct (Z.eq_dec (s_mh q) (s_mh r)) as [X|X]; [exact X|]. exfalso.
    destruct (column_slab (s_mh r) (lo i) (hi i) G1) as [c [b [Eb [L1 [L2 L3]]]]].
    { intros y Hy. apply Iq. split; lia. }
    destruct (chain_in ns edges OK n0 n i C) as [r' [Er' [[W1 W2] _]]]. assert (r' = r) by congruence. subst r'.
    unfold sr_ivl in W1, W2. cbn [lo hi] in W1, W2.
    assert (M : s_ml b = s_mh r).
    { destruct (Z.eq_dec (s_ml b) (s_mh r)) as [M|M]; [exact M|]. exfalso.
      destruct (sslab_ne P r Sr) as [_ N0].
      assert (b = r); [|subst b; lia].
      apply (sslab_unique P b r (s_mh r - 1) (lo i) (nth_slab _ _ Eb) Sr); unfold scell; lia. }
    assert (Kp : In c (kids edges n)).
    { apply KIDS. exists b, r. split; [exact Eb|]. split; [exact Er|]. unfold pc. lia. }
    apply (St c b Kp Eb). unfold within, sr_ivl. cbn [lo hi]. lia. }
  assert (X3 : s_lo q = lo i).
  { destruct (Z.eq_dec (s_lo q) (lo i)) as [X|X]; [exact X|]. exfalso.
    destruct (sslab_ne P a1 (SL _ A1)) as [_ N0].
    destruct (sslab_run P a1 (s_ml a1) (SL _ A1)) as [_ [_ [N _]]]; [lia|]. apply N. apply Iq. split; lia. }
  assert (X4 : s_hi q = hi i).
  { destruct (Z.eq_dec (s_hi q) (hi i)) as [X|X]; [exact X|]. exfalso.
    destruct (sslab_ne P a2 (SL _ B1)) as [_ N0].
    destruct (sslab_run P a2 (s_ml a2) (SL _ B1)) as [_ [_ [_ N]]]; [lia|]. apply N. apply Iq. split; lia. }
  apply sr_ext; cbn [s_lo s_hi s_ml s_mh]; assumption.
Qed.

(* a chain along a maximal rectangle *)
Lemma chain_along o : smaximal P o -> exists n0 r0, nth_error ns n0 = Some r0 /\ s_ml r0 <= s_ml o /\
  forall k, (Z.of_nat k < s_mh o - s_ml o) ->
    exists n r i, nth_error ns n = Some r /\ chain ns edges n0 n i /\ s_ml r <= s_ml o + Z.of_nat k < s_mh r /\
      lo i <= s_lo o /\ s_hi o <= hi i.
Proof.
  intros [[N1 N2] [In _]].
  destruct (column_slab (s_ml o) (s_lo o) (s_hi o) N1) as [n0 [r0 [E0 [L1 [L2 L3]]]]].
  { intros y Hy. apply In. split; lia. }
  exists n0, r0. split; [exact E0|]. split; [lia|]. induction k as [|k IH]; intros Lk.
  - exists n0, r0, (sr_ivl r0). split; [exact E0|]. split; [constructor; exact E0|]. cbn [sr_ivl lo hi]. lia.
  - destruct IH as [n [r [i [En [C [R [I1 I2]]]]]]]; [lia|].
    destruct (Z_lt_ge_dec (s_ml o + Z.of_nat (S k)) (s_mh r)) as [Q|Q].
    { exists n, r, i. split; [exact En|]. split; [exact C|]. lia. }
    destruct (column_slab (s_ml o + Z.of_nat (S k)) (s_lo o) (s_hi o) N1) as [c [b [Eb [M1 [M2 M3]]]]].
    { intros y Hy. apply In. split; lia. }
    destruct (chain_in ns edges OK n0 n i C) as [r' [Er' [[W1 W2] _]]]. assert (r' = r) by congruence. subst r'.
    unfold sr_ivl in W1, W2. cbn [lo hi] in W1, W2.
    assert (M : s_ml b = s_mh r).
    { destruct (Z.eq_dec (s_ml b) (s_mh r)) as [M|M]; [exact M|]. exfalso.
      assert (b = r); [|subst b; lia].
      apply (sslab_unique P b r (s_mh r - 1) (s_lo o) (nth_slab _ _ Eb) (nth_slab _ _ En)); unfold scell; lia. }
    exists c, b, (inter i (sr_ivl b)). split; [exact Eb|]. split.
    { apply (ch_step ns edges n0 n); [exact C| |exact Eb|].
      - apply KIDS. exists b, r. split; [exact Eb|]. split; [exact En|]. unfold pc. lia.
      - unfold nonempty, inter, sr_ivl. cbn [lo hi]. lia. }
    unfold inter, sr_ivl. cbn [lo hi]. lia.
Qed.
Lemma maximal_chain o : smaximal P o -> exists n0 n i r, nth_error ns n = Some r /\ chain ns edges n0 n i /\
  stops ns edges n i /\ i = sr_ivl o /\ s_mh r = s_mh o.
Proof.
  intros M. pose proof M as [[N1 N2] [In Mx]]. destruct (chain_along o M) as [n0 [r0 [E0 [L0 H]]]].
  destruct (H (Z.to_nat (s_mh o - s_ml o - 1))) as [n [r [i [En [C [R [I1 I2]]]]]]]; [lia|].
  destruct (chain_geo n0 n i C r0 r E0 En) as [G1 [G2 [G3 [G4 _]]]]. unfold nonempty in G1.
  assert (Q : mk_sr (lo i) (hi i) (s_ml r0) (s_mh r) = o).
  { apply Mx; cbn [s_lo s_hi s_ml s_mh]; try lia; [split; cbn [s_lo s_hi s_ml s_mh]; assumption|].
    intros x y [H1 H2]. cbn [s_lo s_hi s_ml s_mh] in *. apply G4; assumption. }
  exists n0, n, i, r. split; [exact En|]. split; [exact C|]. subst o. cbn [s_lo s_hi s_ml s_mh] in *.
  split; [|split; [apply ivl_eq; reflexivity|reflexivity]].
  intros c rc Kc Ec W.
  assert (C2 : chain ns edges n0 c (inter i (sr_ivl rc))).
  { apply (ch_step ns edges n0 n); [exact C|exact Kc|exact Ec|]. rewrite (inter_within _ _ W). exact G1. }
  rewrite (inter_within _ _ W) in C2.
  destruct (chain_geo n0 c i C2 r0 rc E0 Ec) as [_ [K2 [_ [K4 _]]]].
  apply KIDS in Kc. destruct Kc as [a [b [Ea [Eb [P1 _]]]]]. assert (a = rc) by congruence. assert (b = r) by congruence. subst a b.
  destruct (sslab_ne P rc (nth_slab _ _ Ec)) as [_ Nc].
  assert (Q : mk_sr (lo i) (hi i) (s_ml r0) (s_mh rc) = mk_sr (lo i) (hi i) (s_ml r0) (s_mh r)).
  { apply Mx; cbn [s_lo s_hi s_ml s_mh]; try lia; [split; cbn [s_lo s_hi s_ml s_mh]; assumption|].
    intros x y [H1 H2]. cbn [s_lo s_hi s_ml s_mh] in *. apply K4; assumption. }
  injection Q as Q. lia.
Qed.

Lemma maximal_same o o' : smaximal P o -> smaximal P o' -> sr_ivl o = sr_ivl o' -> s_mh o = s_mh o' -> o = o'.
Proof.
  intros [A1 [A2 A3]] [B1 [B2 B3]] E1 E2.
  assert (s_lo o = s_lo o') by (apply (f_equal lo) in E1; exact E1).
  assert (s_hi o = s_hi o') by (apply (f_equal hi) in E1; exact E1).
  destruct (Z_le_gt_dec (s_ml o) (s_ml o')) as [Q|Q].
  - apply B3; try assumption; lia.
  - symmetry. apply A3; try assumption; lia.
Qed.

Theorem cover_graph : exists st k0, (forall fuel, (k0 <= fuel)%nat ->
    mc_roots fuel ns edges (seq 0 (length ns)) (mk_ms [] []) = Some st) /\
  NoDup (ms_out st) /\ forall o, In o (ms_out st) <-> smaximal P o.
Proof.
  destruct (walk_ok ns edges OK KIDS) as [st [k0 [H [ND [S A]]]]]. exists st, k0. split; [exact H|]. split; [exact ND|].
  intros o. split.
  - intros Ho. destruct (S o Ho) as [n0 [n [i K]]]. exact (seen_maximal n0 n i o K).
  - intros M. destruct (maximal_chain o M) as [n0 [n [i [r [En [C [St [Ei Em]]]]]]]].
    destruct (A n0 n i C St) as [o' [r' [Ho' [Er' [E1 E2]]]]]. assert (r' = r) by congruence. subst r'.
    destruct (S o' Ho') as [m0 [m [j K]]].
    rewrite (maximal_same o o' M (seen_maximal m0 m j o' K)); [exact Ho'|congruence|congruence].
Qed.
End Geo.

Lemma cover_one P r : sslab P r -> (forall x y, P x y -> scell r x y) -> forall o, In o [r] <-> smaximal P o.
Proof.
  intros S C o. assert (In : sinside P r).
  { intros x y [H1 H2]. destruct (sslab_run P r x S H1) as [_ [R _]]. apply R, H2. }
  destruct (sslab_ne P r S) as [N1 N2].
  assert (M : forall q, sr_ne q -> sinside P q -> s_ml r <= s_ml q /\ s_mh q <= s_mh r /\ s_lo r <= s_lo q /\ s_hi q <= s_hi r).
  { intros q [Q1 Q2] Iq. destruct (C (s_ml q) (s_lo q)) as [C1 C2]; [apply Iq; split; lia|].
    destruct (C (s_mh q - 1) (s_hi q - 1)) as [C3 C4]; [apply Iq; split; lia|]. lia. }
  split.
  - intros [<-|[]]. split; [split; assumption|]. split; [exact In|]. intros q Nq Iq Q1 Q2 Q3 Q4. pose proof (M q Nq Iq).
    apply sr_ext; lia.
  - intros [No [Io Mo]]. left. pose proof (M o No Io). apply Mo; try lia; [split; assumption|exact In].
Qed.

(* nodes in the order of their trailing edges *)
Lemma after_nodes P ns : (forall a, In a ns -> sslab P a) -> NoDup ns -> ForallOrdPairs (fun a b => after b a) ns -> nodes_ok ns.
Proof.
  intros SL ND O. constructor.
  - intros i a E. exact (sslab_ne P a (SL a (nth_error_In _ _ E))).
  - intros i j a b L Ea Eb.
    assert (W : after b a /\ a <> b).
    { clear SL. revert i j L Ea Eb. induction O as [|c l F O IH]; intros i j L Ea Eb; [destruct i; discriminate Ea|].
      inversion ND as [|? ? N1 N2]; subst. destruct j as [|j]; [lia|]. cbn [nth_error] in Eb. destruct i as [|i].
      - cbn [nth_error] in Ea. assert (a = c) by congruence. subst a. pose proof (nth_error_In _ _ Eb) as Hb.
        rewrite Forall_forall in F. split; [apply F; exact Hb|]. intros ->. contradiction.
      - apply (IH N2 i j); [lia|exact Ea|exact Eb]. }
    destruct W as [W N]. pose proof (SL a (nth_error_In _ _ Ea)) as Sa. pose proof (SL b (nth_error_In _ _ Eb)) as Sb.
    destruct (sslab_ne P a Sa) as [A1 A2]. destruct (sslab_ne P b Sb) as [B1 B2].
    unfold after, t_lt in *. destruct W as [W|[W1 W2]]; [left; exact W|]. right. split; [exact W1|].
    destruct (Z_le_gt_dec (s_hi a) (s_lo b)) as [Q|Q]; [exact Q|]. exfalso. apply N.
    destruct (sslab_run P a (s_mh a - 1) Sa) as [_ [Ra [Na1 Na2]]]; [lia|].
    destruct (sslab_run P b (s_mh a - 1) Sb) as [_ [Rb [Nb1 Nb2]]]; [lia|].
    assert (L1 : s_lo a <= s_hi b) by lia.
    destruct (Z.eq_dec (s_lo a) (s_hi b)) as [X|X]; [exfalso; apply Nb2; rewrite <- X; apply Ra; lia|].
    apply (sslab_unique P a b (s_mh a - 1) (Z.max (s_lo a) (s_lo b)) Sa Sb); unfold scell; lia.
  - intros i j a b N Ea Eb. pose proof (SL a (nth_error_In _ _ Ea)) as Sa. pose proof (SL b (nth_error_In _ _ Eb)) as Sb.
    destruct (sslab_ne P a Sa) as [A1 A2]. destruct (sslab_ne P b Sb) as [B1 B2]. unfold l_lt.
    destruct (Z.lt_trichotomy (s_ml a) (s_ml b)) as [Q|[Q|Q]]; [lia| |lia].
    assert (D : s_hi a <= s_lo b \/ s_hi b <= s_lo a \/ (s_lo b < s_hi a /\ s_lo a < s_hi b)) by lia.
    destruct D as [D|[D|D]]; [lia|lia|]. exfalso. apply N.
    assert (a = b).
    { apply (sslab_unique P a b (s_ml a) (Z.max (s_lo a) (s_lo b)) Sa Sb); unfold scell; lia. }
    subst b. apply (proj1 (NoDup_nth_error ns) ND); [apply nth_error_Some; congruence|congruence].
Qed.

Theorem mc_cover_spec P ns lead : (forall a, In a ns -> sslab P a) -> (forall x y, P x y -> exists a, In a ns /\ scell a x y) ->
  NoDup ns -> ForallOrdPairs (fun a b => after b a) ns -> sorted_leads ns lead ->
  exists out k0, (forall fuel, (k0 <= fuel)%nat -> mc_cover fuel lead ns = Some out) /\
    NoDup out /\ forall o, In o out <-> smaximal P o.
Proof.
  intros SL CV ND O SO. pose proof (after_nodes P ns SL ND O) as OK.
  destruct (computeDag_spec ns OK lead SO) as [edges [Ed Hk]].
  destruct (cover_graph P ns SL CV edges OK Hk) as [st [k0 [H [N M]]]].
  assert (G : exists out k0, (forall fuel, (k0 <= fuel)%nat ->
     (do edges <- computeDag ns lead; do st <- mc_roots fuel ns edges (seq 0 (length ns)) (mk_ms [] []); Some (rev (ms_out st))) = Some out) /\
     NoDup out /\ forall o, In o out <-> smaximal P o).
  { exists (rev (ms_out st)), k0. split; [|split].
    - intros fuel L. rewrite Ed. cbn [bind]. rewrite (H fuel L). reflexivity.
    - apply NoDup_rev, N.
    - intros o. rewrite <- in_rev. apply M. }
  destruct ns as [|r [|r2 l]]; [| |exact G].
  - exists [], 0%nat. split; [reflexivity|]. split; [constructor|]. intros o. split; [intros []|].
    intros [[N1 N2] [In _]]. destruct (CV (s_ml o) (s_lo o)) as [a [[] _]]. apply In. split; lia.
  - exists [r], 0%nat. split; [reflexivity|]. split; [constructor; [intros []|constructor]|].
    apply cover_one; [apply SL; left; reflexivity|]. intros x y Hp. destruct (CV x y Hp) as [a [[<-|[]] C]]. exact C.
Qed.

(* ---------- back to rectangles ---------- *)
Definition turned (o : orient) (P : Z -> Z -> Prop) : Z -> Z -> Prop :=
  match o with Vertical => P | Horizontal => fun x y => P y x end.
Lemma sr_of o r : sr_rect o (of_rect o r) = r.
Proof. destruct o, r; reflexivity. Qed.
Lemma of_sr o s : of_rect o (sr_rect o s) = s.
Proof. destruct o, s; reflexivity. Qed.
Lemma to_sr o s : to_rect o s = sr_rect o s.
Proof. destruct o; reflexivity. Qed.
Lemma of_rect_cell o r x y : match o with Vertical => scell (of_rect o r) x y | Horizontal => scell (of_rect o r) y x end <-> in_rect r x y = true.
Proof. destruct o; unfold scell, of_rect, in_rect; cbn [s_ml s_mh s_lo s_hi]; lia. Qed.
Lemma slab_sslab o P r : slab o P r <-> sslab (turned o P) (of_rect o r).
Proof. destruct o; unfold sslab; cbn [slab turned of_rect to_rect]; destruct r; reflexivity. Qed.
Lemma solid_of o r : solid r <-> sr_ne (of_rect o r).
Proof. destruct o; unfold solid, sr_ne, of_rect; cbn [s_ml s_mh s_lo s_hi]; lia. Qed.
Lemma inside_of o P r : inside P r <-> sinside (turned o P) (of_rect o r).
Proof.
  unfold inside, sinside. split.
  - intros H x y C. destruct o; cbn [turned].
    + apply H. apply (of_rect_cell Horizontal r y x). exact C.
    + apply H. apply (of_rect_cell Vertical r x y). exact C.
  - intros H x y E. apply (of_rect_cell o) in E. destruct o; cbn [turned] in H; exact (H _ _ E).
Qed.
Lemma solid_subset r q : solid r -> ((forall x y, in_rect r x y = true -> in_rect q x y = true) <->
  xl q <= xl r /\ xh r <= xh q /\ yl q <= yl r /\ yh r <= yh q).
Proof.
  intros [S1 S2]. split.
  - intros H. pose proof (H (xl r) (yl r)) as H1. pose proof (H (xh r - 1) (yh r - 1)) as H2. unfold in_rect in *. lia.
  - intros H x y. unfold in_rect. lia.
Qed.
Lemma maximal_of o P r : maximal P r <-> smaximal (turned o P) (of_rect o r).
Proof.
  unfold maximal, smaximal. rewrite (solid_of o r) , (inside_of o P r). split.
  - intros [A [B C]]. split; [exact A|]. split; [exact B|]. intros q Nq Iq L1 L2 L3 L4.
    assert (E : sr_rect o q = r); [|rewrite <- E; symmetry; apply of_sr].
    apply C; [apply (solid_of o); rewrite of_sr; exact Nq|apply (inside_of o); rewrite of_sr; exact Iq|].
    apply (solid_of o) in A. apply (solid_subset r _ A). destruct o; cbn [sr_rect of_rect xl xh yl yh s_lo s_hi s_ml s_mh] in *; lia.
  - intros [A [B C]]. split; [exact A|]. split; [exact B|]. intros q Nq Iq Su.
    apply (solid_of o) in A. apply (solid_subset r _ A) in Su.
    assert (E : of_rect o q = of_rect o r); [|rewrite <- (sr_of o q), <- (sr_of o r), E; reflexivity].
    apply C; [apply (solid_of o); exact Nq|apply (inside_of o); exact Iq| | | |];
      destruct o; cbn [of_rect s_lo s_hi s_ml s_mh]; lia.
Qed.

Lemma ordpairs_rev {A} (R : A -> A -> Prop) l : ForallOrdPairs R l -> ForallOrdPairs (fun a b => R b a) (rev l).
Proof.
  induction 1 as [|a l F H IH]; [constructor|]. cbn [rev]. apply ordpairs_app_intro; [exact IH|constructor; constructor|].
  intros x b Hx [<-|[]]. apply in_rev in Hx. rewrite Forall_forall in F. exact (F x Hx).
Qed.
Lemma ordpairs_map {A B} (f : A -> B) (R : B -> B -> Prop) l : ForallOrdPairs (fun a b => R (f a) (f b)) l -> ForallOrdPairs R (map f l).
Proof. induction 1 as [|a l F H IH]; cbn [map]; constructor; [apply Forall_map; exact F|exact IH]. Qed.

Lemma form_rectangles_ordered o V rs : clean_data V -> form_rectangles o V = Some rs ->
  ForallOrdPairs (fun a b => after b a) (map (of_rect o) rs).
Proof.
  intros CD E. unfold form_rectangles in E. destruct (form_loop scan_start INT_MAX V) as [st|] eqn:EL; [|discriminate E].
  cbn [bind] in E. injection E as <-. rewrite map_map.
  pose proof (scan_ordered V st (cd_canon V CD) EL) as O. apply ordpairs_map.
  assert (Q : forall s, of_rect o (match o with Vertical => mk_rect (s_ml s) (s_mh s) (s_lo s) (s_hi s)
      | Horizontal => mk_rect (s_lo s) (s_hi s) (s_ml s) (s_mh s) end) = s) by (intros [a b c d]; destruct o; reflexivity).
  apply ordpairs_rev in O. revert O. generalize (rev (sc_out st)). intros l O.
  induction O as [|a l F O IH]; constructor; [|exact IH]. eapply Forall_impl; [|exact F]. cbn beta. intros b Hb. rewrite !Q. exact Hb.
Qed.

Lemma get_max_rectangles_spec sort s : ps_ok s -> (forall ns, sorted_leads ns (sort ns)) ->
  exists out k0, (forall fuel, (k0 <= fuel)%nat -> get_max_rectangles fuel sort s = Some out) /\
    NoDup out /\ forall r, In r out <-> maximal (ps_covers s) r.
Proof.
  intros O Hs. set (o := ps_orient s).
  assert (H0 : ps_ok (ps_insert_range (ps_new o) (ps_data s) o) /\ ps_orient (ps_insert_range (ps_new o) (ps_data s) o) = o /\
    forall x y, ps_covers (ps_insert_range (ps_new o) (ps_data s) o) x y <-> ps_covers s x y).
  { destruct (ps_insert_range_spec (ps_new o) (ps_data s) o (ps_new_ok o) (ok_closed _ O) (ok_int _ O)) as [A1 [A2 [A3 _]]].
    split; [exact A1|]. split; [exact A2|]. intros x y. unfold ps_covers, ps_count. rewrite A2. cbn [ps_new ps_orient ps_data] in *.
    rewrite A3. fold o. destruct o; cbn [wind cnt]; lia. }
  destruct H0 as [O0 [Eo0 C0]].
  destruct (clean_is_clean_data _ O0) as [t [Et [Ot [Eot [CD C1]]]]].
  destruct (form_rectangles_spec o (ps_data t) CD) as [rs [Er D]].
  assert (D' : decomposes o (ps_covers s) rs).
  { eapply decomposes_ext; [|exact D]. intros x y. rewrite <- C0, <- C1. unfold ps_covers, ps_count. rewrite Eot, Eo0. reflexivity. }
  clear D. destruct D' as [[_ [_ T]] [ND Sl]].
  destruct (mc_cover_spec (turned o (ps_covers s)) (map (of_rect o) rs) (sort (map (of_rect o) rs))) as [out [k0 [H [N M]]]].
  - intros a Ha. apply in_map_iff in Ha. destruct Ha as [r [<- Hr]]. apply slab_sslab, Sl, Hr.
  - intros x y Hp. destruct o; cbn [turned] in Hp; apply T in Hp; destruct Hp as [r [Hr E]];
      eexists; (split; [apply in_map; exact Hr|]).
    + apply (of_rect_cell Horizontal r y x). exact E.
    + apply (of_rect_cell Vertical r x y). exact E.
  - apply FinFun.Injective_map_NoDup; [|exact ND]. intros r q E. rewrite <- (sr_of o r), <- (sr_of o q), E. reflexivity.
  - exact (form_rectangles_ordered o _ rs CD Er).
  - apply Hs.
  - exists (map (sr_rect o) out), k0. split; [|split].
    + intros fuel L. unfold get_max_rectangles. fold o. rewrite Et. cbn [bind]. rewrite Er. cbn [bind]. rewrite (H fuel L). reflexivity.
    + apply FinFun.Injective_map_NoDup; [|exact N]. intros r q E. rewrite <- (of_sr o r), <- (of_sr o q), E. reflexivity.
    + intros r. rewrite in_map_iff. split.
      * intros [q [<- Hq]]. apply (maximal_of o). rewrite of_sr. apply M, Hq.
      * intros Hr. exists (of_rect o r). split; [apply sr_of|]. apply M. apply maximal_of. exact Hr.
Qed.
