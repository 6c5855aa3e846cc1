(* What the simplification of a polygon removes and what it keeps. *)
From Coq Require Import QArith ZArith List Bool Lia.
From Verif Require Import Base Units Outcome Poly90Model SimplifySpec SimplifyModel.
From Coq Require Import Lqa.
Import ListNotations.
Open Scope Q_scope.

Lemma qlt_iff a b : qlt a b = true <-> a < b.
Proof.
  unfold qlt. rewrite negb_true_iff. split; intros H.
  - apply Qnot_le_lt. intros K. apply Qle_bool_iff in K. congruence.
  - destruct (Qle_bool b a) eqn:E; [|reflexivity]. apply Qle_bool_iff in E. lra.
Qed.
Lemma qlt_false a b : qlt a b = false <-> b <= a.
Proof. unfold qlt. rewrite negb_false_iff. apply Qle_bool_iff. Qed.
Lemma qsq x : 0 <= x * x.
Proof. destruct (Qlt_le_dec x 0) as [N|P]; [setoid_replace (x * x) with (- x * - x) by ring; apply Qmult_le_0_compat; lra|apply Qmult_le_0_compat; lra]. Qed.
Lemma sq_zero x y : x * x + y * y == 0 -> x == 0 /\ y == 0.
Proof.
  intros H. pose proof (qsq x). pose proof (qsq y).
  assert (X : x * x == 0) by lra. assert (Y : y * y == 0) by lra.
  apply Qmult_integral in X. apply Qmult_integral in Y. tauto.
Qed.
Lemma ac_zero a c : Qeq_bool ((qx c - qx a) * (qx c - qx a) + (qy c - qy a) * (qy c - qy a)) 0 = true <-> a = c.
Proof.
  rewrite Qeq_bool_iff. split.
  - intros H. apply sq_zero in H. destruct H as [H1 H2]. unfold qx, qy in *.
    assert (X : inject_Z (px c) == inject_Z (px a)) by lra. assert (Y : inject_Z (py c) == inject_Z (py a)) by lra.
    apply (proj1 (inject_Z_injective _ _)) in X. apply (proj1 (inject_Z_injective _ _)) in Y. destruct a as [ax ay], c as [cx cy]. cbn [px py] in X, Y. subst. reflexivity.
  - intros ->. ring.
Qed.

(* ---------- one vertex ---------- *)
Section Vertex.
Variables (len : Q) (a b c : point).
Let abx := qx b - qx a. Let aby := qy b - qy a.
Let acx := qx c - qx a. Let acy := qy c - qy a.
Let bcx := qx c - qx b. Let bcy := qy c - qy b.
Let D := acx * acx + acy * acy.
Let t := (abx * acx + aby * acy) / D.
Let perp2 := (abx - acx * t) * (abx - acx * t) + (aby - acy * t) * (aby - acy * t).
Let f2 := (acx * t * acx + acy * t * acx) / D.
Lemma dist_def : relevant_dist a b c = if Qeq_bool D 0 then None else
  Some (if qlt f2 0 then abx * abx + aby * aby else if qlt 1 f2 then bcx * bcx + bcy * bcy else perp2).
Proof. reflexivity. Qed.
Lemma at_0 : sqr_dist_at a b c 0 == abx * abx + aby * aby.
Proof. unfold sqr_dist_at, abx, aby. ring. Qed.
Lemma at_1 : sqr_dist_at a b c 1 == bcx * bcx + bcy * bcy.
Proof. unfold sqr_dist_at, bcx, bcy. ring. Qed.
Lemma at_t : sqr_dist_at a b c t == perp2.
Proof. unfold sqr_dist_at, perp2. fold acx acy. unfold abx, aby. ring. Qed.
Lemma D_pos : a <> c -> 0 < D.
Proof.
  intros N. assert (K : Qeq_bool D 0 <> true) by (intros K; apply ac_zero in K; contradiction).
  rewrite Qeq_bool_iff in K. pose proof (qsq acx). pose proof (qsq acy). apply Qnot_le_lt. intros L. apply K. unfold D in L |- *. lra.
Qed.
Lemma D_t : a <> c -> t * D == abx * acx + aby * acy.
Proof. intros N. pose proof (D_pos N). unfold t. field. lra. Qed.
(* the distance at any place of the line *)
Lemma at_any s : a <> c -> sqr_dist_at a b c s == perp2 + (s - t) * (s - t) * D.
Proof.
  intros N. pose proof (D_t N) as T.
  setoid_replace (sqr_dist_at a b c s) with (abx * abx + aby * aby - 2 * s * (abx * acx + aby * acy) + s * s * D) by (unfold sqr_dist_at; fold acx acy; unfold D, abx, aby; ring).
  setoid_replace perp2 with (abx * abx + aby * aby - 2 * t * (abx * acx + aby * acy) + t * t * D) by (unfold perp2, D; ring).
  rewrite <- T. ring.
Qed.
(* removed: near the line *)
Lemma removed_near : keeps len a b c = false -> a = c \/ near_line len a b c.
Proof.
  unfold keeps. rewrite dist_def. destruct (Qeq_bool D 0) eqn:E.
  - intros _. left. apply ac_zero. exact E.
  - intros K. right. apply qlt_false in K. destruct (qlt f2 0).
    + exists 0. rewrite at_0. exact K.
    + destruct (qlt 1 f2); [exists 1; rewrite at_1; exact K|exists t; rewrite at_t; exact K].
Qed.
(* kept: not near both neighbours *)
Lemma kept_far : keeps len a b c = true -> a <> c /\ (len * len < sqr_dist_at a b c 0 \/ len * len < sqr_dist_at a b c 1).
Proof.
  unfold keeps. rewrite dist_def. destruct (Qeq_bool D 0) eqn:E; [discriminate|].
  assert (N : a <> c) by (intros Q; apply ac_zero in Q; fold acx acy in Q; fold D in Q; congruence).
  intros K. split; [exact N|]. apply qlt_iff in K. rewrite at_0, at_1. destruct (qlt f2 0); [left; exact K|]. destruct (qlt 1 f2); [right; exact K|].
  left. rewrite <- at_0, (at_any 0 N). pose proof (D_pos N) as P. pose proof (qsq (0 - t)) as S.
  assert (0 <= (0 - t) * (0 - t) * D) by (apply Qmult_le_0_compat; lra). lra.
Qed.
(* neighbours at one height, or one above the other at a slope of one: what the
   comment says *)
Lemma straight : a <> c -> acy == 0 \/ acy == acx -> keeps len a b c = false <-> near_segment len a b c.
Proof.
  intros N S. pose proof (D_pos N) as P. unfold keeps. rewrite dist_def.
  destruct (Qeq_bool D 0) eqn:E; [apply ac_zero in E; contradiction|].
  assert (F : f2 == t).
  { unfold f2. setoid_replace (acx * t * acx + acy * t * acx) with (t * D); [field; lra|]. unfold D. destruct S as [S|S]; rewrite S; ring. }
  rewrite qlt_false. split.
  - intros K. destruct (qlt f2 0) eqn:Q0; [exists 0; split; [lra|rewrite at_0; exact K]|]. apply qlt_false in Q0.
    destruct (qlt 1 f2) eqn:Q1; [exists 1; split; [lra|rewrite at_1; exact K]|]. apply qlt_false in Q1. exists t. split; [lra|rewrite at_t; exact K].
  - intros [s [R K]]. rewrite (at_any s N) in K. destruct (qlt f2 0) eqn:Q0.
    + apply qlt_iff in Q0. rewrite <- at_0, (at_any 0 N).
      assert (0 <= ((s - t) * (s - t) - (0 - t) * (0 - t)) * D); [|lra]. apply Qmult_le_0_compat; [|lra].
      setoid_replace ((s - t) * (s - t) - (0 - t) * (0 - t)) with (s * (s + 2 * - t)) by ring. apply Qmult_le_0_compat; lra.
    + apply qlt_false in Q0. destruct (qlt 1 f2) eqn:Q1.
      * apply qlt_iff in Q1. rewrite <- at_1, (at_any 1 N).
        assert (0 <= ((s - t) * (s - t) - (1 - t) * (1 - t)) * D); [|lra]. apply Qmult_le_0_compat; [|lra].
        setoid_replace ((s - t) * (s - t) - (1 - t) * (1 - t)) with ((1 - s) * (2 * t - s - 1)) by ring. apply Qmult_le_0_compat; lra.
      * assert (0 <= (s - t) * (s - t) * D) by (apply Qmult_le_0_compat; [apply qsq|lra]). lra.
Qed.
End Vertex.

(* ---------- subsequences and rotations ---------- *)
Lemma subseq_refl {A} (l : list A) : subseq l l.
Proof. induction l; constructor; assumption. Qed.
Lemma subseq_trans {A} (l m n : list A) : subseq l m -> subseq m n -> subseq l n.
Proof.
  intros H K. revert l H. induction K as [n|x m n K IH|x m n K IH]; intros l H.
  - inversion H. constructor.
  - inversion H; subst; [constructor|apply subseq_take; apply IH; assumption|apply subseq_skip; apply IH; assumption].
  - apply subseq_skip. apply IH. exact H.
Qed.
Lemma subseq_app {A} (l l' m m' : list A) : subseq l l' -> subseq m m' -> subseq (l ++ m) (l' ++ m').
Proof.
  intros H K. induction H as [l'|x l l' H IH|x l l' H IH]; cbn; [|apply subseq_take; exact IH|apply subseq_skip; exact IH].
  induction l'; cbn; [exact K|apply subseq_skip; assumption].
Qed.
Lemma subseq_len {A} (l m : list A) : subseq l m -> (length l <= length m)%nat.
Proof. intros H. induction H; cbn; lia. Qed.
Lemma subseq_full {A} (l m : list A) : subseq l m -> length l = length m -> l = m.
Proof.
  intros H. induction H as [m|x l m H IH|x l m H IH]; cbn; intros E; [destruct m; [reflexivity|discriminate]|f_equal; apply IH; lia|].
  apply subseq_len in H. lia.
Qed.
Lemma rotation_refl {A} (l : list A) : rotation l l.
Proof. exists l, []. rewrite app_nil_r. auto. Qed.
Lemma rotation_len {A} (l m : list A) : rotation l m -> length m = length l.
Proof. intros [a [b [-> ->]]]. rewrite !app_length. lia. Qed.
Lemma rotation_trans {A} (l m n : list A) : rotation l m -> rotation m n -> rotation l n.
Proof.
  intros [a [b [-> ->]]] [c [d [E ->]]].
  (* b ++ a = c ++ d *)
  revert c d E. induction b as [|x b IH] using rev_ind; intros c d E.
  - cbn in E. subst a. rewrite app_nil_r. exists c, d. auto.
  - assert (K : forall (b c d a : list A), b ++ a = c ++ d -> (exists e, b = c ++ e /\ d = e ++ a) \/ (exists e, c = b ++ e /\ a = e ++ d)).
    { clear. induction b as [|x b IH]; intros c d a E; [right; exists c; auto|]. destruct c as [|y c]; [left; exists (x :: b); auto|].
      cbn in E. injection E as -> E. destruct (IH c d a E) as [[e [-> ->]]|[e [-> ->]]]; [left; exists e; auto|right; exists e; auto]. }
    destruct (K (b ++ [x]) c d a E) as [[e [E1 E2]]|[e [E1 E2]]].
    + rewrite E1, E2. exists (a ++ c), e. rewrite <- !app_assoc. auto.
    + rewrite E1, E2. exists e, (d ++ b ++ [x]). rewrite <- !app_assoc. auto.
Qed.
(* a subsequence of a rotation stays one if it is rotated *)
Lemma subseq_rotate {A} (x : A) s l : subseq (x :: s) l -> exists r, rotation l r /\ subseq (s ++ [x]) r.
Proof.
  intros H. assert (K : exists l1 l2, l = l1 ++ x :: l2 /\ subseq s l2).
  { remember (x :: s) as xs eqn:E. revert E. induction H as [l|y t l H IH|y t l H IH]; intros E; [discriminate|injection E as -> ->|].
    - exists [], l. auto.
    - destruct (IH E) as [l1 [l2 [-> S]]]. exists (y :: l1), l2. auto. }
  destruct K as [l1 [l2 [-> S]]]. exists (l2 ++ l1 ++ [x]). split.
  - exists (l1 ++ [x]), l2. rewrite <- app_assoc. auto.
  - apply subseq_app; [exact S|]. apply (subseq_app [] l1 [x] [x]); [constructor|apply subseq_refl].
Qed.

(* ---------- a pass ---------- *)
Lemma pass_subseq len : forall l prev n, subseq (pass_loop len prev (l ++ [n])) l.
Proof.
  induction l as [|i l IH]; intros prev n; [constructor|]. cbn [app pass_loop]. destruct (l ++ [n]) as [|nx t] eqn:E; [constructor|]. rewrite <- E.
  destruct (keeps len prev i nx); [apply subseq_take; apply IH|apply subseq_skip; apply IH].
Qed.
(* the fate of each vertex *)
Lemma pass_fate len : forall pre prev b post n, exists kept out1 out2,
  pass_loop len prev (pre ++ b :: post ++ [n]) = out1 ++ (if kept : bool then [b] else []) ++ out2 /\
  subseq out1 pre /\ subseq out2 post /\ kept = keeps len (last out1 prev) b (hd n post).
Proof.
  induction pre as [|i pre IH]; intros prev b post n.
  - cbn [app pass_loop]. destruct (post ++ [n]) as [|nx t] eqn:E; [destruct post; discriminate|]. rewrite <- E.
    assert (NX : nx = hd n post) by (destruct post; cbn in *; congruence). subst nx.
    exists (keeps len prev b (hd n post)), [], (pass_loop len (if keeps len prev b (hd n post) then b else prev) (post ++ [n])).
    split; [destruct (keeps len prev b (hd n post)); reflexivity|]. split; [constructor|]. split; [apply pass_subseq|reflexivity].
  - cbn [app pass_loop]. destruct (pre ++ b :: post ++ [n]) as [|nx t] eqn:E; [destruct pre; discriminate|]. rewrite <- E.
    destruct (keeps len prev i nx).
    + destruct (IH i b post n) as [k [o1 [o2 [E1 [S1 [S2 K]]]]]]. exists k, (i :: o1), o2. rewrite E1. split; [reflexivity|].
      split; [apply subseq_take; exact S1|]. split; [exact S2|]. rewrite K. f_equal. destruct o1 as [|z o1]; [reflexivity|]. cbn [last]. clear. revert z. induction o1; intros z; [reflexivity|]. cbn in *. destruct o1; [reflexivity|apply (IHo1 a)].
    + destruct (IH prev b post n) as [k [o1 [o2 [E1 [S1 [S2 K]]]]]]. exists k, o1, o2. rewrite E1. split; [reflexivity|].
      split; [apply subseq_skip; exact S1|]. split; [exact S2|exact K].
Qed.
Lemma simplify_pass_subseq len p0 rest : subseq (simplify_pass len (p0 :: rest)) (rest ++ [p0]).
Proof.
  destruct rest as [|p1 rest]; [constructor|]. unfold simplify_pass.
  change (rest) with rest. replace ((p1 :: rest) ++ [p0; p1]) with (((p1 :: rest) ++ [p0]) ++ [p1]) by (rewrite <- app_assoc; reflexivity). apply pass_subseq.
Qed.
(* nothing was removed *)
Lemma pass_all len : forall l prev n, length (pass_loop len prev (l ++ [n])) = length l ->
  forall pre b post, prev :: l = pre ++ b :: post -> forall q, post = q :: tl post -> keeps len b q (hd n (tl post)) = true.
Proof.
  induction l as [|i l IH]; intros prev n L pre b post E q Q.
  - destruct pre as [|x [|y pre]]; cbn in E; [injection E as <- <-; discriminate|discriminate|discriminate].
  - cbn [app pass_loop] in L. destruct (l ++ [n]) as [|nx t] eqn:EN; [destruct l; discriminate|]. rewrite <- EN in L.
    assert (NX : nx = hd n l) by (destruct l; cbn in *; congruence). subst nx.
    pose proof (subseq_len _ _ (pass_subseq len l i n)) as B1. pose proof (subseq_len _ _ (pass_subseq len l prev n)) as B2.
    destruct (keeps len prev i (hd n l)) eqn:K; cbn [length] in L; [|lia].
    destruct pre as [|x pre]; cbn in E.
    + injection E as <- <-. cbn in Q. injection Q as <-. exact K.
    + injection E as <- E. apply (IH i n ltac:(lia) pre b post E q Q).
Qed.

(* ---------- the polygons between ---------- *)
Lemma keeps_same len a c : keeps len a a c = false.
Proof.
  unfold keeps, relevant_dist. cbv zeta.
  destruct (Qeq_bool ((qx c - qx a) * (qx c - qx a) + (qy c - qy a) * (qy c - qy a)) 0) eqn:E; [reflexivity|].
  apply Qeq_bool_neq in E. apply qlt_false. pose proof (qsq len) as L.
  set (D := (qx c - qx a) * (qx c - qx a) + (qy c - qy a) * (qy c - qy a)) in *.
  set (T := ((qx a - qx a) * (qx c - qx a) + (qy a - qy a) * (qy c - qy a)) / D).
  assert (T0 : T == 0) by (unfold T; field; exact E).
  set (f2 := ((qx c - qx a) * T * (qx c - qx a) + (qy c - qy a) * T * (qx c - qx a)) / D).
  assert (F : f2 == 0) by (unfold f2; rewrite T0; field; exact E).
  destruct (qlt f2 0) eqn:Q0; [apply qlt_iff in Q0; lra|]. destruct (qlt 1 f2) eqn:Q1; [apply qlt_iff in Q1; lra|].
  rewrite T0. setoid_replace ((qx a - qx a - (qx c - qx a) * 0) * (qx a - qx a - (qx c - qx a) * 0) + (qy a - qy a - (qy c - qy a) * 0) * (qy a - qy a - (qy c - qy a) * 0)) with 0 by ring. exact L.
Qed.
Lemma follows_hd b m : follows (b :: m) b (hd b m).
Proof. exists m. split; [apply rotation_refl|reflexivity]. Qed.
Lemma follows_second a b m : follows (a :: b :: m) b (hd a m).
Proof. exists (m ++ [a]). split; [exists [a], (b :: m); auto|destruct m; reflexivity]. Qed.

Section Steps.
Variables (len : Q) (src : list point) (p0 p1 : point).
(* from a kept vertex on *)
Lemma steps_b : forall rem o prev h, steps len src ((prev :: rem ++ p0 :: o) :: h) ->
  (exists l0, In l0 h /\ follows l0 p0 p1) -> exists h',
  steps len src ((o ++ [prev] ++ pass_loop len prev (rem ++ [p0; p1])) :: h').
Proof.
  induction rem as [|i rem IH]; intros o prev h S F.
  - cbn [app pass_loop]. destruct (keeps len prev p0 p1) eqn:K.
    + exists ((prev :: p0 :: o) :: h). eapply steps_turn; [exact S|]. exists [prev; p0], o. split; reflexivity.
    + destruct F as [l0 [I F]]. exists ((prev :: o) :: (prev :: p0 :: o) :: h). eapply steps_turn; [|exists [prev], o; split; reflexivity].
      eapply steps_remove; [exact S|right; exact I|exact F|apply removed_near; exact K].
  - assert (FI : follows (prev :: (i :: rem) ++ p0 :: o) i (hd p0 rem)).
    { pose proof (follows_second prev i (rem ++ p0 :: o)) as FS. replace (hd prev (rem ++ p0 :: o)) with (hd p0 rem) in FS by (destruct rem; reflexivity). exact FS. }
    cbn [app pass_loop]. destruct (rem ++ [p0; p1]) as [|nx t] eqn:E; [destruct rem; discriminate|].
    assert (NX : nx = hd p0 rem) by (destruct rem; cbn in *; congruence). subst nx. rewrite <- E in IH |- *.
    destruct (keeps len prev i (hd p0 rem)) eqn:K.
    + destruct (IH (o ++ [prev]) i ((prev :: (i :: rem) ++ p0 :: o) :: h)) as [h' S'].
      * eapply steps_turn; [exact S|]. exists [prev], ((i :: rem) ++ p0 :: o). split; [reflexivity|]. cbn. rewrite <- app_assoc. reflexivity.
      * destruct F as [l0 [I F]]. exists l0. split; [right; exact I|exact F].
      * exists h'. rewrite <- app_assoc in S'. exact S'.
    + destruct (IH o prev ((prev :: (i :: rem) ++ p0 :: o) :: h)) as [h' S'].
      * eapply steps_remove; [exact S|left; reflexivity|exact FI|apply removed_near; exact K].
      * destruct F as [l0 [I F]]. exists l0. split; [right; exact I|exact F].
      * exists h'. exact S'.
Qed.
(* before the first kept vertex *)
Lemma steps_a : forall rem h, steps len src ((p0 :: rem) :: h) ->
  (exists l0, In l0 ((p0 :: rem) :: h) /\ follows l0 p0 p1) ->
  pass_loop len p0 (rem ++ [p0; p1]) <> [] -> exists h', steps len src (pass_loop len p0 (rem ++ [p0; p1]) :: h').
Proof.
  induction rem as [|i rem IH]; intros h S F.
  - cbn [app pass_loop]. rewrite keeps_same. intros N. contradiction.
  - pose proof (follows_second p0 i rem) as FI.
    cbn [app pass_loop]. destruct (rem ++ [p0; p1]) as [|nx t] eqn:E; [destruct rem; discriminate|].
    assert (NX : nx = hd p0 rem) by (destruct rem; cbn in *; congruence). subst nx. rewrite <- E in IH |- *.
    destruct (keeps len p0 i (hd p0 rem)) eqn:K; intros N.
    + destruct (steps_b rem [] i ((p0 :: i :: rem) :: h)) as [h' S'].
      * eapply steps_turn; [exact S|]. exists [p0], (i :: rem). split; reflexivity.
      * exact F.
      * exists h'. exact S'.
    + apply (IH ((p0 :: i :: rem) :: h)).
      * eapply steps_remove; [exact S|left; reflexivity|exact FI|apply removed_near; exact K].
      * destruct F as [l0 [I F]]. exists l0. split; [right; exact I|exact F].
      * exact N.
Qed.
End Steps.
Lemma pass_steps len src dst h : steps len src (dst :: h) -> simplify_pass len dst <> [] -> exists h', steps len src (simplify_pass len dst :: h').
Proof.
  destruct dst as [|p0 [|p1 rest]]; [contradiction|contradiction|]. intros S N. unfold simplify_pass in *.
  apply (steps_a len src p0 p1 (p1 :: rest) h S); [|exact N].
  exists (p0 :: p1 :: rest). split; [left; reflexivity|]. exact (follows_hd p0 (p1 :: rest)).
Qed.

(* ---------- a pass that removes nothing ---------- *)
Lemma pass_neighbours len dst : length (simplify_pass len dst) = length dst -> forall a b c, neighbours dst a b c -> keeps len a b c = true.
Proof.
  destruct dst as [|p0 [|p1 rest]].
  - intros _ a b c [m [R _]]. apply rotation_len in R. discriminate.
  - intros L. discriminate.
  - intros L a b c [m [[u [v [E1 E2]]] ->]].
    assert (K : forall pre b q post, (p0 :: p1 :: rest) ++ [p0] = pre ++ b :: q :: post -> keeps len b q (hd p1 post) = true).
    { intros pre b' q post E. unfold simplify_pass in L.
      assert (L' : length (pass_loop len p0 (((p1 :: rest) ++ [p0]) ++ [p1])) = length ((p1 :: rest) ++ [p0])).
      { rewrite <- app_assoc. cbn [app] in L |- *. rewrite L. cbn [length]. rewrite app_length. cbn. lia. }
      apply (pass_all len _ _ _ L' pre b' (q :: post) E q eq_refl). }
    destruct v as [|x [|y v]].
    + cbn in E2. rewrite app_nil_r in E1. subst u. injection E2 as E3 E4 E5. subst a b m.
      specialize (K [] p0 p1 (rest ++ [p0]) eq_refl). destruct rest as [|z m]; exact K.
    + cbn in E2. injection E2 as E3 E4. subst x u. specialize (K (b :: m) a b []).
      destruct m as [|z m]; cbn in E1; injection E1 as -> -> ->; apply K; cbn; rewrite <- ?app_assoc; reflexivity.
    + cbn in E2. injection E2 as E3 E4 E5. subst x y m. rewrite E1 in K. specialize (K u a b (v ++ [p0])). rewrite <- app_assoc in K. specialize (K eq_refl).
      destruct v as [|z v]; cbn in K |- *; [|exact K]. destruct u as [|w u]; cbn in E1 |- *; injection E1 as -> E1; exact K.
Qed.

(* ---------- the whole function ---------- *)
Lemma rotation_subseq {A} (d l r : list A) : rotation l r -> subseq d l -> exists r', rotation l r' /\ subseq d r'.
Proof. intros _ S. exists l. split; [apply rotation_refl|exact S]. Qed.
(* a subsequence of a rotation of a subsequence of a rotation *)
Lemma subseq_split {A} (d l1 l2 : list A) : subseq d (l1 ++ l2) -> exists d1 d2, d = d1 ++ d2 /\ subseq d1 l1 /\ subseq d2 l2.
Proof.
  revert d. induction l1 as [|x l1 IH]; intros d H; [exists [], d; split; [reflexivity|split; [constructor|exact H]]|].
  cbn in H. inversion H as [|y t l' H'|y t l' H']; subst.
  - exists [], []. split; [reflexivity|split; constructor].
  - destruct (IH t H') as [d1 [d2 [-> [S1 S2]]]]. exists (x :: d1), d2. split; [reflexivity|]. split; [apply subseq_take; exact S1|exact S2].
  - destruct (IH d H') as [d1 [d2 [-> [S1 S2]]]]. exists d1, d2. split; [reflexivity|]. split; [apply subseq_skip; exact S1|exact S2].
Qed.
Definition sub_rot {A} (d l : list A) : Prop := exists r, rotation l r /\ subseq d r.
Lemma subseq_over {A} (d l : list A) : subseq d l -> forall d1 d2, d = d1 ++ d2 -> exists l1 l2, l = l1 ++ l2 /\ subseq d1 l1 /\ subseq d2 l2.
Proof.
  intros H. induction H as [l|x d l H IH|x d l H IH]; intros d1 d2 E.
  - destruct d1; [|discriminate]. destruct d2; [|discriminate]. exists [], l. split; [reflexivity|split; constructor].
  - destruct d1 as [|y d1]; cbn in E.
    + subst d2. exists [], (x :: l). split; [reflexivity|]. split; [constructor|apply subseq_take; exact H].
    + injection E as -> ->. destruct (IH d1 d2 eq_refl) as [l1 [l2 [-> [S1 S2]]]]. exists (y :: l1), l2. split; [reflexivity|]. split; [apply subseq_take; exact S1|exact S2].
  - destruct (IH d1 d2 E) as [l1 [l2 [-> [S1 S2]]]]. exists (x :: l1), l2. split; [reflexivity|]. split; [apply subseq_skip; exact S1|exact S2].
Qed.
Lemma sub_rot_trans {A} (d l m : list A) : sub_rot d l -> sub_rot l m -> sub_rot d m.
Proof.
  intros [r [[l1 [l2 [E ->]]] S]] [q [R T]].
  destruct (subseq_over _ _ T l1 l2 E) as [q1 [q2 [-> [T1 T2]]]].
  exists (q2 ++ q1). split; [eapply rotation_trans; [exact R|exists q1, q2; auto]|].
  eapply subseq_trans; [exact S|]. apply subseq_app; assumption.
Qed.
Lemma pass_sub_rot len dst : sub_rot (simplify_pass len dst) dst.
Proof.
  destruct dst as [|p0 rest]; [exists []; split; [apply rotation_refl|constructor]|].
  exists (rest ++ [p0]). split; [exists [p0], rest; auto|apply simplify_pass_subseq].
Qed.
Lemma sub_rot_len {A} (d l : list A) : sub_rot d l -> (length d <= length l)%nat.
Proof. intros [r [R S]]. apply rotation_len in R. apply subseq_len in S. lia. Qed.

Lemma simplify_loop_ok len src closed : forall fuel dst fin, (length dst < fuel)%nat -> (dst <> [] -> exists h, steps len src (dst :: h)) ->
  exists r n, simplify_loop fuel len (fin + Z.of_nat (length dst)) fin closed dst = Some (r, n) /\
  ((r = [] /\ n = (fin + Z.of_nat (length dst))%Z) \/
   (exists p d h, steps len src ((p :: d) :: h) /\ (2 <= length d)%nat /\ sub_rot (p :: d) dst /\
      (forall a b c, neighbours (p :: d) a b c -> keeps len a b c = true) /\
      (r, n) = (if closed then ((p :: d) ++ [p], ((fin + Z.of_nat (length dst) - Z.of_nat (length (p :: d)) - 1) mod 2 ^ 64)%Z)
                else (p :: d, (fin + Z.of_nat (length dst) - Z.of_nat (length (p :: d)))%Z)))).
Proof.
  induction fuel as [|fuel IH]; intros dst fin F S; [lia|]. cbn [simplify_loop]. destruct (length dst <? 3)%nat eqn:L3.
  - exists [], (fin + Z.of_nat (length dst))%Z. split; [reflexivity|left; auto].
  - apply Nat.ltb_ge in L3. pose proof (pass_sub_rot len dst) as SR. pose proof (sub_rot_len _ _ SR) as LE.
    destruct (Z.of_nat (length dst) - Z.of_nat (length (simplify_pass len dst)) =? 0)%Z eqn:R0.
    + apply Z.eqb_eq in R0. assert (LQ : length (simplify_pass len dst) = length dst) by lia.
      pose proof (pass_neighbours len dst LQ) as PN.
      destruct dst as [|p d]; [cbn in L3; lia|]. destruct (S ltac:(discriminate)) as [h Sh].
      assert (SD : sub_rot (p :: d) (p :: d)) by (exists (p :: d); split; [apply rotation_refl|apply subseq_refl]).
      destruct closed.
      * exists ((p :: d) ++ [p]), ((fin - 1) mod 2 ^ 64)%Z. split; [reflexivity|]. right. exists p, d, h.
        split; [exact Sh|]. split; [cbn in L3; lia|]. split; [exact SD|]. split; [exact PN|]. f_equal. f_equal. lia.
      * exists (p :: d), fin. split; [reflexivity|]. right. exists p, d, h.
        split; [exact Sh|]. split; [cbn in L3; lia|]. split; [exact SD|]. split; [exact PN|]. f_equal. lia.
    + apply Z.eqb_neq in R0. set (out := simplify_pass len dst) in *. set (res := (Z.of_nat (length dst) - Z.of_nat (length out))%Z) in *.
      destruct (IH out (fin + res)%Z) as [r [n [E H]]]; [lia| |].
      * intros N. destruct (S ltac:(intros ->; cbn in L3; lia)) as [h Sh]. exact (pass_steps len src dst h Sh N).
      * replace (fin + Z.of_nat (length dst))%Z with (fin + res + Z.of_nat (length out))%Z by (unfold res; lia).
        exists r, n. split; [exact E|]. destruct H as [H|[p [d [h [H1 [H2 [H3 [H4 H5]]]]]]]]; [left; exact H|right].
        exists p, d, h. split; [exact H1|]. split; [exact H2|]. split; [eapply sub_rot_trans; [exact H3|exact SR]|]. split; [exact H4|exact H5].
Qed.
(* a closed list loses a vertex *)
Lemma closed_shrinks len p l d : closed_list (p :: l) = true -> (2 <= length l)%nat -> sub_rot d (p :: l) ->
  (forall a b c, neighbours d a b c -> keeps len a b c = true) -> (length d < length (p :: l))%nat.
Proof.
  intros C L SR K. pose proof (sub_rot_len _ _ SR) as LE. destruct (Nat.eq_dec (length d) (length (p :: l))) as [E|E]; [|lia]. exfalso.
  destruct SR as [r [R S]]. apply subseq_full in S; [|apply rotation_len in R; lia]. subst d.
  assert (exists q, l = q ++ [p]) as [q ->].
  { destruct (exists_last (l := l)) as [q [z ->]]; [intros ->; cbn in L; lia|]. exists q. f_equal.
    unfold closed_list in C. rewrite app_comm_cons, last_last in C. apply andb_true_iff in C. destruct C as [C1 C2]. apply Z.eqb_eq in C1, C2.
    destruct p as [x y], z as [x' y']. cbn [px py] in C1, C2. subst. reflexivity. }
  assert (NB : neighbours r p p (hd p q)).
  { exists q. split; [|reflexivity]. eapply rotation_trans; [|exists (p :: q), [p]; split; [reflexivity|reflexivity]].
    destruct R as [a [b [E1 E2]]]. exists b, a. split; [exact E2|]. rewrite <- E1. reflexivity. }
  apply K in NB. rewrite keeps_same in NB. discriminate.
Qed.
Lemma slope a c : py a = py c \/ (py c - py a = px c - px a)%Z -> qy c - qy a == 0 \/ qy c - qy a == qx c - qx a.
Proof.
  unfold qx, qy, Qminus. intros [S|S]; [left; rewrite S; ring|right].
  rewrite <- !inject_Z_opp, <- !inject_Z_plus. apply inject_Z_injective. lia.
Qed.
