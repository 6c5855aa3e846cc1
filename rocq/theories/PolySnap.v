(* snap_point_vector_to_45. *)
From Verif Require Import Base Units Outcome Scan90Spec Poly90Spec Poly90Model Poly90Proofs PolyCycle Poly90Vertices.
From Verif Require Import Set90Spec Set90Model GeoSpec IvlModel IvlProofs RectModel RectProofs SegModel SegProofs PolySpec PolyModel PolyArea PolyMapModel.

Lemma local_abs_inv v r : local_abs v = Ok r -> r = Z.abs v.
Proof. unfold local_abs. destruct (Z.ltb_spec v 0); [intros E; apply chk_inv in E; destruct E as [E _]|intros E; assert (v = r) by congruence]; lia. Qed.
Lemma local_abs_ok v : is_int v -> v <> INT_MIN -> local_abs v = Ok (Z.abs v).
Proof.
  intros I N. unfold local_abs. destruct (Z.ltb_spec v 0); [|f_equal; lia]. rewrite Z.abs_neq by lia. apply chk_ok.
  unfold is_int, INT_MIN, INT_MAX in *. lia.
Qed.
Ltac inv_try H := match type of H with
  | (obind ?a _ = Ok _) => let E := fresh "E" in destruct a eqn:E; cbn [obind] in H; [|discriminate H|discriminate H]
  end.
Definition e45 (a b : point) : Prop := edge_45 (a, b).
Lemma e45_eq a b : e45 a b <-> px a = px b \/ py a = py b \/ Z.abs (px b - px a) = Z.abs (py b - py a).
Proof. unfold e45, edge_45, axis_edge. cbn [fst snd]. tauto. Qed.
Lemma e45_sym a b : e45 a b -> e45 b a.
Proof. rewrite !e45_eq. lia. Qed.
Lemma pt_eta p : mk_pt (px p) (py p) = p.
Proof. destruct p; reflexivity. Qed.

Lemma snap_rise dx dy h o : (0 < dx /\ 0 < dy) \/ (dx < 0 /\ dy < 0) -> Z.abs (Z.abs dx - Z.abs dy) = 2 * h + o -> 0 <= o < 2 ->
  dx + h + o = dy - h \/ dx - h - o = dy + h.
Proof.
  intros [[A B]|[A B]] E O; [rewrite (Z.abs_eq dx), (Z.abs_eq dy) in E by lia|rewrite (Z.abs_neq dx), (Z.abs_neq dy) in E by lia];
  (destruct (Z_le_gt_dec dx dy) as [L|L]; [|]);
  first [rewrite Z.abs_eq in E by lia|rewrite Z.abs_neq in E by lia]; lia.
Qed.
Lemma snap_fall dx dy h o : (0 < dx /\ dy < 0) \/ (dx < 0 /\ 0 < dy) -> Z.abs (Z.abs dx - Z.abs dy) = 2 * h + o -> 0 <= o < 2 ->
  dx + h + o = - (dy + h) \/ dx - h - o = - (dy - h).
Proof.
  intros [[A B]|[A B]] E O; [rewrite (Z.abs_eq dx), (Z.abs_neq dy) in E by lia|rewrite (Z.abs_neq dx), (Z.abs_eq dy) in E by lia];
  (destruct (Z_le_gt_dec dx (- dy)) as [L|L]; [|]);
  first [rewrite Z.abs_eq in E by lia|rewrite Z.abs_neq in E by lia]; lia.
Qed.
Lemma e45_diag a q : Z.abs (px q - px a) = Z.abs (py q - py a) -> e45 a q.
Proof. intros H. apply e45_eq. right. right. exact H. Qed.
Lemma snap_pt_inv a b c q w : snap_pt a b c = Ok (q, w) ->
  e45 a q /\ (e45 a b -> q = b /\ w = false) /\ (px b = px c \/ py b = py c -> w = false /\ (px q = px c \/ py q = py c)).
Proof.
  unfold snap_pt. intros H. inv_try H. inv_try H. apply chk_inv in E, E0. destruct E as [-> _], E0 as [-> _].
  assert (BAD : exists bad, (if negb (px b - px a =? 0) && negb (py b - py a =? 0)
       then try ax <- local_abs (px b - px a); try ay <- local_abs (py b - py a); Ok (negb (ax =? ay)) else Ok false) = Ok bad /\ (bad = false <-> e45 a b)).
  { inv_try H. clear H. rename a0 into bad. exists bad. split; [reflexivity|]. rewrite e45_eq.
    destruct (negb (px b - px a =? 0) && negb (py b - py a =? 0)) eqn:G.
    - inv_try E. inv_try E. apply local_abs_inv in E0, E1. subst. assert (B0 : bad = negb (Z.abs (px b - px a) =? Z.abs (py b - py a))) by congruence.
      subst bad. rewrite negb_false_iff, Z.eqb_eq. apply andb_prop in G. destruct G as [G1 G2]. apply negb_true_iff, Z.eqb_neq in G1. apply negb_true_iff, Z.eqb_neq in G2.
      split; [tauto|]. intros [X|[X|X]]; [lia|lia|exact X].
    - assert (B0 : bad = false) by congruence. subst bad. split; [|reflexivity]. intros _. apply andb_false_iff in G.
      destruct G as [G|G]; apply negb_false_iff, Z.eqb_eq in G; [left|right; left]; lia. }
  destruct BAD as [bad [EB B]]. rewrite EB in H. cbn [obind] in H. clear EB. destruct bad.
  2:{ assert (Q : q = b /\ w = false) by (split; congruence). destruct Q as [-> ->]. assert (e45 a b) by tauto. split; [assumption|]. split; [tauto|]. tauto. }
  assert (NB : ~ e45 a b) by (intros X; apply B in X; discriminate). clear B.
  split; [|split; [tauto|]].
  - inv_try H. inv_try H. apply chk_inv in E, E0. destruct E as [-> _], E0 as [-> _].
    assert (NX : px b - px a <> 0) by (intros X; apply NB, e45_eq; left; lia). assert (NY : py b - py a <> 0) by (intros X; apply NB, e45_eq; right; left; lia). clear NB.
    destruct (negb (px c - px b =? 0) && negb (py c - py b =? 0)) eqn:G.
    + inv_try H. inv_try H. apply local_abs_inv in E, E0. subst a0 a1. inv_try H. apply chk_inv in E. destruct E as [-> _]. inv_try H. apply local_abs_inv in E.
      set (half := a0 / 2) in *. set (odd := a0 mod 2) in *.
      assert (HD : a0 = 2 * half + odd /\ 0 <= odd < 2). { unfold half, odd. split; [apply Z.div_mod; lia|apply Z.mod_pos_bound; lia]. } clearbody half odd.
      destruct HD as [HD1 HD2]. rewrite HD1 in E. symmetry in E. clear HD1 G.
      remember (px b - px a) as dx eqn:DX. remember (py b - py a) as dy eqn:DY.
      destruct ((dx >? 0) && (dy >? 0) || (dx <? 0) && (dy <? 0)) eqn:R.
      * assert (R' : (0 < dx /\ 0 < dy) \/ (dx < 0 /\ dy < 0)) by (clear - R; lia). pose proof (snap_rise dx dy half odd R' E HD2) as K. clear R R' E.
        inv_try H. inv_try H. inv_try H. inv_try H. apply chk_inv in E, E1. apply local_abs_inv in E0, E2. destruct E as [-> _], E1 as [-> _].
        destruct (Z.eqb_spec a2 a4) as [Q1|Q1].
        -- inv_try H. inv_try H. apply chk_inv in E, E1. destruct E as [-> _], E1 as [-> _]. assert (EQ : q = mk_pt (px b + half + odd) (py b - half)) by congruence. subst q.
           apply e45_diag. cbn [px py]. replace (px b + half + odd - px a) with (dx + half + odd) by (subst dx; ring). replace (py b - half - py a) with (dy - half) by (subst dy; ring). congruence.
        -- inv_try H. inv_try H. inv_try H. inv_try H. apply chk_inv in E, E3. apply local_abs_inv in E1, E4. destruct E as [-> _], E3 as [-> _].
           destruct (Z.eqb_spec a3 a6) as [Q2|Q2].
           ++ inv_try H. inv_try H. apply chk_inv in E, E3. destruct E as [-> _], E3 as [-> _]. assert (EQ : q = mk_pt (px b - half - odd) (py b + half)) by congruence. subst q.
              apply e45_diag. cbn [px py]. replace (px b - half - odd - px a) with (dx - half - odd) by (subst dx; ring). replace (py b + half - py a) with (dy + half) by (subst dy; ring). congruence.
           ++ exfalso. destruct K as [K|K]; [apply Q1|apply Q2]; congruence.
      * assert (R' : (0 < dx /\ dy < 0) \/ (dx < 0 /\ 0 < dy)) by (clear - R NX NY; lia). pose proof (snap_fall dx dy half odd R' E HD2) as K. clear R R' E.
        inv_try H. inv_try H. inv_try H. inv_try H. apply chk_inv in E, E1. apply local_abs_inv in E0, E2. destruct E as [-> _], E1 as [-> _].
        destruct (Z.eqb_spec a2 a4) as [Q1|Q1].
        -- inv_try H. inv_try H. apply chk_inv in E, E1. destruct E as [-> _], E1 as [-> _]. assert (EQ : q = mk_pt (px b + half + odd) (py b + half)) by congruence. subst q.
           apply e45_diag. cbn [px py]. replace (px b + half + odd - px a) with (dx + half + odd) by (subst dx; ring). replace (py b + half - py a) with (dy + half) by (subst dy; ring). congruence.
        -- inv_try H. inv_try H. inv_try H. inv_try H. apply chk_inv in E, E3. apply local_abs_inv in E1, E4. destruct E as [-> _], E3 as [-> _].
           destruct (Z.eqb_spec a3 a6) as [Q2|Q2].
           ++ inv_try H. inv_try H. apply chk_inv in E, E3. destruct E as [-> _], E3 as [-> _]. assert (EQ : q = mk_pt (px b - half - odd) (py b - half)) by congruence. subst q.
              apply e45_diag. cbn [px py]. replace (px b - half - odd - px a) with (dx - half - odd) by (subst dx; ring). replace (py b - half - py a) with (dy - half) by (subst dy; ring). congruence.
           ++ exfalso. destruct K as [K|K]; [apply Q1; rewrite E0, E2, K|apply Q2; rewrite E1, E4, K]; apply Z.abs_opp.
    + destruct (negb (px c - px b =? 0)) eqn:G2.
      * inv_try H. apply local_abs_inv in E. inv_try H. apply chk_inv in E0. destruct E0 as [-> _]. assert (EQ : q = mk_pt (px a + (if px b - px a <? 0 then a0 * -1 else a0)) (py b)) by congruence.
        subst q a0. apply e45_diag. cbn [px py]. clear. destruct (px b - px a <? 0).
        -- replace (px a + Z.abs (py b - py a) * -1 - px a) with (- Z.abs (py b - py a)) by ring. rewrite Z.abs_opp. apply Z.abs_involutive.
        -- replace (px a + Z.abs (py b - py a) - px a) with (Z.abs (py b - py a)) by ring. apply Z.abs_involutive.
      * inv_try H. apply local_abs_inv in E. inv_try H. apply chk_inv in E0. destruct E0 as [-> _]. assert (EQ : q = mk_pt (px b) (py a + (if py b - py a <? 0 then a0 * -1 else a0))) by congruence.
        subst q a0. apply e45_diag. cbn [px py]. clear. destruct (py b - py a <? 0).
        -- replace (py a + Z.abs (px b - px a) * -1 - py a) with (- Z.abs (px b - px a)) by ring. rewrite Z.abs_opp. symmetry. apply Z.abs_involutive.
        -- replace (py a + Z.abs (px b - px a) - py a) with (Z.abs (px b - px a)) by ring. symmetry. apply Z.abs_involutive.
  - intros AX. inv_try H. inv_try H. apply chk_inv in E, E0. destruct E as [-> _], E0 as [-> _]. clear NB.
    assert (G : negb (px c - px b =? 0) && negb (py c - py b =? 0) = false) by (clear - AX; lia). rewrite G in H. clear G.
    destruct (Z.eqb_spec (px c - px b) 0) as [G2|G2]; cbn [negb] in H.
    + inv_try H. inv_try H. assert (EQ : q = mk_pt (px b) a1 /\ w = false) by (split; congruence). destruct EQ as [-> ->]. cbn [px py]. split; [reflexivity|]. left. lia.
    + inv_try H. inv_try H. assert (EQ : q = mk_pt a1 (py b) /\ w = false) by (split; congruence). destruct EQ as [-> ->]. cbn [px py]. split; [reflexivity|]. right. lia.
Qed.

(* ---------- lists by index ---------- *)
Definition d0 : point := mk_pt 0 0.
Lemma set_nth_length i p l : length (set_nth i p l) = length l.
Proof. revert i. induction l as [|a l IH]; intros i; [destruct i; reflexivity|]. destruct i; cbn [set_nth length]; [reflexivity|]. f_equal. apply IH. Qed.
Lemma set_nth_same i p l : (i < length l)%nat -> nth i (set_nth i p l) d0 = p.
Proof. revert i. induction l as [|a l IH]; intros i H; [cbn [length] in H; lia|]. destruct i; cbn [set_nth nth length] in *; [reflexivity|]. apply IH. lia. Qed.
Lemma set_nth_other i j p l : i <> j -> nth j (set_nth i p l) d0 = nth j l d0.
Proof.
  revert i j. induction l as [|a l IH]; intros i j N; [destruct i; reflexivity|].
  destruct i, j; cbn [set_nth nth]; try reflexivity; [lia|]. apply IH. lia.
Qed.
Lemma set_nth_id i l : set_nth i (nth i l d0) l = l.
Proof. revert i. induction l as [|a l IH]; intros i; [destruct i; reflexivity|]. destruct i; cbn [set_nth nth]; [reflexivity|]. f_equal. apply IH. Qed.
Lemma cyc_nth (P : point -> point -> Prop) l :
  Forall (fun e => P (fst e) (snd e)) (cyc_edges l) <-> forall i, (i < length l)%nat -> P (nth i l d0) (nth ((i + 1) mod length l) l d0).
Proof.
  destruct l as [|f t]; [cbn [cyc_edges length]; split; [intros _ i H; lia|constructor]|].
  assert (LC : length (cyc_edges (f :: t)) = length (f :: t)) by (unfold cyc_edges; rewrite combine_length, app_length; cbn [length]; lia).
  assert (NC : forall i, (i < length (f :: t))%nat -> nth i (cyc_edges (f :: t)) (d0, d0) = (nth i (f :: t) d0, nth ((i + 1) mod length (f :: t)) (f :: t) d0)).
  { intros i H. unfold cyc_edges. rewrite combine_nth by (rewrite app_length; cbn [length]; lia). f_equal.
    destruct (Nat.eq_dec i (length t)) as [->|N].
    - rewrite app_nth2, Nat.sub_diag by lia. cbn [length]. replace (length t + 1)%nat with (S (length t)) by lia. rewrite Nat.mod_same by lia. reflexivity.
    - cbn [length] in *. rewrite app_nth1 by lia. rewrite Nat.mod_small by lia. replace (i + 1)%nat with (S i) by lia. reflexivity. }
  rewrite Forall_forall. split.
  - intros H i Hi. specialize (H (nth i (cyc_edges (f :: t)) (d0, d0))). rewrite NC in H by exact Hi. apply H. rewrite <- NC by exact Hi. apply nth_In. rewrite LC. exact Hi.
  - intros H e He. destruct (In_nth _ _ (d0, d0) He) as [i [Hi E]]. rewrite LC in Hi. rewrite <- E, NC by exact Hi. apply H. exact Hi.
Qed.
Lemma snap_step_inv l i l' w : snap_step l i = Ok (l', w) -> exists q,
  snap_pt (nth i l d0) (nth ((i + 1) mod length l) l d0) (nth ((i + 2) mod length l) l d0) = Ok (q, w) /\ l' = set_nth ((i + 1) mod length l) q l.
Proof.
  unfold snap_step, d0. intros H. inv_try H. destruct a as [q v]. exists q.
  assert (EQ : l' = set_nth ((i + 1) mod length l) q l /\ w = v) by (split; congruence). destruct EQ as [-> ->]. auto.
Qed.
Lemma snap_pass_app is js : forall l w l2 w2, snap_pass (is ++ js) l w = Ok (l2, w2) ->
  exists l1 w1, snap_pass is l w = Ok (l1, w1) /\ snap_pass js l1 w1 = Ok (l2, w2).
Proof.
  induction is as [|i is IH]; intros l w l2 w2 H; [exists l, w; split; [reflexivity|exact H]|].
  cbn [app snap_pass] in *. inv_try H. destruct a as [la wa]. apply IH in H. cbn [obind]. exact H.
Qed.
(* the steps before the last one *)
Lemma snap_pass_pre l w k : forall l' w', (k + 1 <= length l)%nat -> snap_pass (seq 0 k) l w = Ok (l', w') ->
  length l' = length l /\ nth 0 l' d0 = nth 0 l d0 /\
  (forall j, (j < k)%nat -> e45 (nth j l' d0) (nth (j + 1) l' d0)) /\
  (forall j, (k < j)%nat -> nth j l' d0 = nth j l d0) /\
  (e45 (nth 0 l d0) (nth 1 l d0) -> nth 1 l' d0 = nth 1 l d0).
Proof.
  induction k as [|k IH]; intros l' w' K H.
  - assert (l' = l) by (cbn [seq snap_pass] in H; congruence). subst. repeat split; [intros j X; lia].
  - replace (S k) with (k + 1)%nat in H by lia. rewrite seq_app in H. cbn [seq] in H. apply snap_pass_app in H. destruct H as [l1 [w1 [H1 H2]]].
    destruct (IH l1 w1 ltac:(lia) H1) as [L [Z0 [E [F G]]]]. cbn [Nat.add snap_pass] in H2. inv_try H2. destruct a as [l2 w2].
    assert (l2 = l') by congruence. subst l2. apply snap_step_inv in E0. destruct E0 as [q [SP ->]].
    apply snap_pt_inv in SP. destruct SP as [S1 [S2 S3]].
    assert (M : ((k + 1) mod length l1 = k + 1)%nat) by (apply Nat.mod_small; lia). rewrite M in *.
    split; [rewrite set_nth_length; exact L|]. split; [rewrite set_nth_other by lia; exact Z0|]. split; [|split].
    + intros j Hj. destruct (Nat.eq_dec j k) as [->|N].
      * rewrite set_nth_same by lia. rewrite set_nth_other by lia. exact S1.
      * rewrite !set_nth_other by lia. apply E. lia.
    + intros j Hj. rewrite set_nth_other by lia. apply F. lia.
    + intros X. destruct (Nat.eq_dec k 0) as [->|N]; [|rewrite set_nth_other by lia; apply G; exact X].
      rewrite set_nth_same by lia. assert (l1 = l) by (cbn [seq snap_pass] in H1; congruence). subst l1. apply S2. exact X.
Qed.
Lemma snap_pass_full l w l' w' : (2 <= length l)%nat -> snap_pass (seq 0 (length l)) l w = Ok (l', w') ->
  length l' = length l /\ (forall j, (1 <= j < length l)%nat -> e45 (nth j l' d0) (nth ((j + 1) mod length l) l' d0)) /\
  (px (nth 0 l d0) = px (nth 1 l d0) \/ py (nth 0 l d0) = py (nth 1 l d0) -> w' = false /\ e45 (nth 0 l' d0) (nth 1 l' d0)).
Proof.
  intros L2 H. set (n := length l) in *. replace (seq 0 n) with (seq 0 (n - 1) ++ [n - 1]%nat) in H.
  2:{ replace n with (n - 1 + 1)%nat at 3 by lia. rewrite seq_app. reflexivity. }
  apply snap_pass_app in H. destruct H as [l1 [w1 [H1 H2]]].
  destruct (snap_pass_pre l w (n - 1) l1 w1 ltac:(fold n; lia) H1) as [L [Z0 [E [F G]]]]. fold n in L.
  cbn [snap_pass] in H2. inv_try H2. destruct a as [l2 w2]. assert (l2 = l' /\ w2 = w') by (split; congruence). destruct H as [-> ->]. clear H2.
  apply snap_step_inv in E0. destruct E0 as [q [SP ->]]. apply snap_pt_inv in SP. destruct SP as [S1 [S2 S3]].
  rewrite L in *. assert (M0 : ((n - 1 + 1) mod n = 0)%nat) by (replace (n - 1 + 1)%nat with n by lia; apply Nat.mod_same; lia).
  assert (M1 : ((n - 1 + 2) mod n = 1 mod n)%nat). { replace (n - 1 + 2)%nat with (1 + 1 * n)%nat by lia. apply Nat.mod_add. lia. }
  rewrite (Nat.mod_small 1 n) in M1 by lia. rewrite M0, M1 in *.
  split; [rewrite set_nth_length; exact L|]. split.
  - intros j Hj. rewrite (set_nth_other 0 j) by lia. destruct (Nat.eq_dec j (n - 1)) as [->|N].
    + rewrite M0. rewrite set_nth_same by lia. exact S1.
    + rewrite Nat.mod_small by lia. rewrite set_nth_other by lia. apply E. lia.
  - intros AX. assert (X1 : nth 1 l1 d0 = nth 1 l d0). { apply G. rewrite e45_eq. tauto. }
    rewrite set_nth_same by lia. rewrite set_nth_other by lia. rewrite <- Z0, <- X1 in AX. destruct (S3 AX) as [W Q]. split; [exact W|]. rewrite e45_eq. tauto.
Qed.
(* ---------- preparation ---------- *)
Lemma uniq_cons a b t : uniq (a :: b :: t) = if pt_eqb a b then uniq (b :: t) else a :: uniq (b :: t).
Proof. reflexivity. Qed.
Lemma pt_eqb_spec a b : reflect (a = b) (pt_eqb a b).
Proof.
  destruct (pt_eqb a b) eqn:E; constructor; unfold pt_eqb in E.
  - destruct a as [a1 a2], b as [b1 b2]; cbn [px py] in E. f_equal; lia.
  - intros ->. lia.
Qed.
Lemma uniq_in l p : In p (uniq l) <-> In p l.
Proof.
  induction l as [|a l IH]; [tauto|]. destruct l as [|b t]; [tauto|]. rewrite uniq_cons. destruct (pt_eqb_spec a b) as [->|N].
  - rewrite IH. cbn [In]. tauto.
  - cbn [In] in *. rewrite IH. tauto.
Qed.
Lemma uniq_adj l : Forall (fun e : point * point => fst e <> snd e) (pedges (uniq l)).
Proof.
  induction l as [|a l IH]; [constructor|]. destruct l as [|b t]; [constructor|]. rewrite uniq_cons. destruct (pt_eqb_spec a b) as [->|N]; [exact IH|].
  assert (H : exists u, uniq (b :: t) = b :: u).
  { clear. revert b. induction t as [|c t IH]; intros b; [exists []; reflexivity|]. rewrite uniq_cons. destruct (pt_eqb_spec b c) as [->|N]; [apply IH|eauto]. }
  destruct H as [u Hu]. rewrite Hu in *. cbn [pedges]. constructor; [exact N|exact IH].
Qed.
Lemma uniq_id l : Forall (fun e : point * point => fst e <> snd e) (pedges l) -> uniq l = l.
Proof.
  induction l as [|a l IH]; intros H; [reflexivity|]. destruct l as [|b t]; [reflexivity|]. rewrite uniq_cons. cbn [pedges] in H. inversion H as [|x y H1 H2]; subst.
  cbn [fst snd] in H1. destruct (pt_eqb_spec a b); [contradiction|]. rewrite IH; [reflexivity|exact H2].
Qed.
Lemma snap_prepare_in l p : In p (snap_prepare l) -> In p l.
Proof.
  unfold snap_prepare. destruct (Nat.ltb (length l) 3); [intros []|]. rewrite <- (uniq_in l p). destruct (uniq l) as [|f u]; [intros []|].
  destruct (pt_eqb _ _); [|tauto]. intros H. destruct u as [|c u]; [destruct H|].
  pose proof (app_removelast_last f (l := f :: c :: u) ltac:(discriminate)) as A. rewrite A. apply in_or_app. left. exact H.
Qed.
Lemma pedges_removelast l : forall e, In e (pedges (removelast l)) -> In e (pedges l).
Proof.
  induction l as [|a l IH]; intros e H; [destruct H|]. destruct l as [|b t]; [destruct H|]. cbn [removelast] in H.
  destruct t as [|c t]; [destruct H|]. cbn [removelast pedges] in *. destruct H as [<-|H]; [left; reflexivity|]. right. apply IH. exact H.
Qed.
(* the prepared cycle has no edge of length zero *)
Lemma snap_prepare_adj l : Forall (fun e : point * point => fst e <> snd e) (pedges (snap_prepare l)).
Proof.
  unfold snap_prepare. destruct (Nat.ltb (length l) 3); [constructor|]. pose proof (uniq_adj l) as A. destruct (uniq l) as [|f u]; [constructor|].
  destruct (pt_eqb _ _); [|exact A]. rewrite Forall_forall in *. intros e He. apply A, pedges_removelast. exact He.
Qed.
Lemma snap_prepare_len l : length (snap_prepare l) <> 1%nat.
Proof.
  unfold snap_prepare. destruct (Nat.ltb (length l) 3); [discriminate|]. pose proof (uniq_adj l) as A. destruct (uniq l) as [|f u]; [discriminate|].
  destruct (pt_eqb_spec (last (f :: u) f) f) as [E|N].
  - destruct u as [|c u]; [discriminate|]. cbn [removelast]. destruct u as [|d u]; [|discriminate]. cbn [last] in E. subst c.
    inversion A as [|x y A1 A2]; subst. cbn [fst snd] in A1. congruence.
  - destruct u as [|c u]; [contradiction N; reflexivity|discriminate].
Qed.
Lemma snap_prepare_nz l : no_zero_edge (snap_prepare l).
Proof.
  pose proof (snap_prepare_adj l) as A. pose proof (snap_prepare_len l) as LN. unfold no_zero_edge.
  assert (C : forall f t, snap_prepare l = f :: t -> last (f :: t) f <> f).
  { unfold snap_prepare in *. destruct (Nat.ltb (length l) 3); [discriminate|]. pose proof (uniq_adj l) as U. destruct (uniq l) as [|g u] eqn:EU; [discriminate|].
    destruct (pt_eqb_spec (last (g :: u) g) g) as [E|N].
    - intros f t E2. destruct u as [|c u]; [discriminate|].
      assert (f = g) by (cbn [removelast] in E2; congruence). subst f.
      pose proof (app_removelast_last g (l := g :: c :: u) ltac:(discriminate)) as AR. rewrite E, E2 in AR. rewrite AR in U.
      destruct t as [|c' t]; [rewrite E2 in LN; cbn [length] in LN; lia|].
      intros LL. pose proof (app_removelast_last g (l := g :: c' :: t) ltac:(discriminate)) as AR2. rewrite LL in AR2. rewrite AR2 in U.
      rewrite <- app_assoc in U. cbn [app] in U. rewrite pedges_snoc in U. apply Forall_app in U. destruct U as [_ U]. inversion U as [|x y U1 U2]; subst. cbn [fst snd] in U1. congruence.
    - intros f t E2. assert (E3 : f = g /\ t = u) by (split; congruence). destruct E3 as [-> ->]. exact N. }
  destruct (snap_prepare l) as [|f t]; [constructor|]. rewrite cyc_pedges. destruct t as [|c t]; [cbn [length] in LN; lia|].
  pose proof (app_removelast_last f (l := f :: c :: t) ltac:(discriminate)) as AR. rewrite AR at 1. rewrite <- app_assoc. cbn [app]. rewrite pedges_snoc.
  apply Forall_app. split; [rewrite <- AR; exact A|]. constructor; [|constructor]. cbn [fst snd]. apply (C f (c :: t) eq_refl).
Qed.
Lemma snap_prepare_id l : (3 <= length l)%nat -> no_zero_edge l -> snap_prepare l = l.
Proof.
  intros L Z0. unfold snap_prepare. replace (Nat.ltb (length l) 3) with false by (symmetry; apply Nat.ltb_ge; lia).
  destruct l as [|f [|c t]]; cbn [length] in L; try lia.
  unfold no_zero_edge in Z0. rewrite cyc_pedges in Z0. pose proof (app_removelast_last f (l := f :: c :: t) ltac:(discriminate)) as AR.
  rewrite AR in Z0 at 1. rewrite <- app_assoc in Z0. cbn [app] in Z0. rewrite pedges_snoc in Z0. apply Forall_app in Z0. destruct Z0 as [Z1 Z2]. rewrite <- AR in Z1.
  rewrite (uniq_id _ Z1). inversion Z2 as [|x y Z3 Z4]; subst. cbn [fst snd] in Z3. destruct (pt_eqb_spec (last (f :: c :: t) f) f); [contradiction|reflexivity].
Qed.

(* ---------- the result ---------- *)
Lemma len_cases l : length (snap_prepare l) = 0%nat \/ (2 <= length (snap_prepare l))%nat.
Proof. pose proof (snap_prepare_len l). lia. Qed.
Lemma snap_points_but_first l r : snap_points l = Ok r ->
  length r = length (snap_prepare l) /\ (forall j, (1 <= j < length r)%nat -> e45 (nth j r d0) (nth ((j + 1) mod length r) r d0)).
Proof.
  unfold snap_points. intros H. inv_try H. destruct a as [l1 w]. destruct (len_cases l) as [L0|L2].
  { rewrite L0 in *. cbn [seq snap_pass] in E. assert (EQ : snap_prepare l = l1 /\ w = false) by (split; congruence). destruct EQ as [<- ->].
    assert (r = snap_prepare l) by congruence. subst r. rewrite L0. split; [reflexivity|]. intros j X. lia. }
  destruct (snap_pass_full _ _ _ _ L2 E) as [LN [E1 _]]. destruct w.
  - inv_try H. destruct a as [l2 w2]. assert (l2 = r) by congruence. subst l2. rewrite <- LN in L2, E0. destruct (snap_pass_full _ _ _ _ L2 E0) as [LN2 [E2 _]].
    rewrite LN2, LN. split; [reflexivity|]. rewrite LN in E2. exact E2.
  - assert (l1 = r) by congruence. subst l1. rewrite LN. split; [reflexivity|exact E1].
Qed.
Lemma snap_points_axis l r : snap_points l = Ok r ->
  (px (nth 0 (snap_prepare l) d0) = px (nth 1 (snap_prepare l) d0) \/ py (nth 0 (snap_prepare l) d0) = py (nth 1 (snap_prepare l) d0)) -> cycle_45 r.
Proof.
  intros H AX. pose proof (snap_points_but_first l r H) as [LR E1]. unfold cycle_45.
  apply (Forall_impl (P := fun e => e45 (fst e) (snd e))); [intros [a b]; exact (fun x => x)|]. apply cyc_nth. intros j Hj.
  destruct (Nat.eq_dec j 0) as [->|N]; [|apply E1; lia].
  destruct (len_cases l) as [L0|L2]; [lia|]. unfold snap_points in H. inv_try H. destruct a as [l1 w].
  destruct (snap_pass_full _ _ _ _ L2 E) as [LN [_ E2]]. destruct (E2 AX) as [-> E3]. assert (l1 = r) by congruence. subst l1.
  rewrite Nat.mod_small by lia. exact E3.
Qed.
Lemma snap_step_id l i : (i < length l)%nat -> Forall (pt_fits (2 ^ 30 - 1)) l -> e45 (nth i l d0) (nth ((i + 1) mod length l) l d0) -> snap_step l i = Ok (l, false).
Proof.
  intros Hi F E. unfold snap_step. fold d0. set (j := ((i + 1) mod length l)%nat) in *.
  assert (Hj : (j < length l)%nat) by (apply Nat.mod_upper_bound; lia).
  rewrite Forall_forall in F. pose proof (F _ (nth_In l d0 Hi)) as F1. pose proof (F _ (nth_In l d0 Hj)) as F2.
  unfold pt_fits in F1, F2. rewrite e45_eq in E. set (a := nth i l d0) in *. set (b := nth j l d0) in *.
  assert (I1 : is_int (px b - px a)) by (unfold is_int, INT_MIN, INT_MAX; lia). assert (I2 : is_int (py b - py a)) by (unfold is_int, INT_MIN, INT_MAX; lia).
  unfold snap_pt. rewrite !chk_ok by assumption. cbn [obind].
  rewrite !local_abs_ok by (try assumption; unfold INT_MIN; lia). cbn [obind].
  assert (B : (if negb (px b - px a =? 0) && negb (py b - py a =? 0) then Ok (negb (Z.abs (px b - px a) =? Z.abs (py b - py a))) else Ok false) = Ok false).
  { destruct (negb (px b - px a =? 0) && negb (py b - py a =? 0)) eqn:G; [|reflexivity]. f_equal. lia. }
  rewrite B. cbn [obind]. f_equal. f_equal. unfold b. apply set_nth_id.
Qed.
Lemma snap_points_id l : Forall (pt_fits (2 ^ 30 - 1)) l -> cycle_45 (snap_prepare l) -> snap_points l = Ok (snap_prepare l).
Proof.
  intros F C. unfold snap_points.
  assert (FP : Forall (pt_fits (2 ^ 30 - 1)) (snap_prepare l)) by (rewrite Forall_forall in *; intros p Hp; apply F, snap_prepare_in, Hp).
  set (m := snap_prepare l) in *. clearbody m. unfold cycle_45 in C.
  assert (C2 : forall i, (i < length m)%nat -> e45 (nth i m d0) (nth ((i + 1) mod length m) m d0)).
  { apply cyc_nth. revert C. apply Forall_impl. intros [a b]. exact (fun x => x). }
  assert (P : forall k is w, (forall i, In i is -> (i < length m)%nat) -> length is = k -> exists w', snap_pass is m w = Ok (m, w') /\ (w = false -> w' = false)).
  { clear - FP C2. induction k as [|k IH]; intros is w Hi L; destruct is as [|i is]; try discriminate; [exists w; auto|]. cbn [snap_pass].
    rewrite (snap_step_id m i (Hi i (or_introl eq_refl)) FP (C2 i (Hi i (or_introl eq_refl)))). cbn [obind].
    destruct (IH is false (fun j Hj => Hi j (or_intror Hj)) ltac:(cbn [length] in L; lia)) as [w' [A B]]. exists w'. split; [exact A|]. intros _. apply B. reflexivity. }
  destruct (P _ (seq 0 (length m)) false ltac:(intros i Hi; apply in_seq in Hi; lia) eq_refl) as [w' [A B]]. rewrite A. cbn [obind]. rewrite (B eq_refl). reflexivity.
Qed.
