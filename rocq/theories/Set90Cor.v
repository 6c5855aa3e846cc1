(* Consequences of the simulation, in the form of the property theorems. *)
From Verif Require Import Base Scan90Spec BoolOpModel VertexLemmas BoolOpProofs IsoSpec IsoModel IsoProofs
  Set90Spec Set90Model Set90Lemmas Set90Proofs Set90History.

Lemma history_spec ops : Forall op_ok ops ->
  run start ops <> Undefined /\
  forall st outs, run start ops = Ok (st, outs) ->
    exists ast, aruns astart ops ast outs /\
      forall i, ps_orient (st i) = fst (ast i) /\ forall x y, ps_count (st i) x y = snd (ast i) x y.
Proof.
  intros Hok. pose proof (run_spec ops start astart rel_start Hok) as R.
  destruct (run start ops) as [[st outs]| |]; (split; [try discriminate; try (intros; contradiction)|]);
    intros st' outs' E; try discriminate E; try contradiction.
  injection E as <- <-. destruct R as [ast [R1 R2]]. exists ast. split; [exact R1|].
  intros i. destruct (R2 i) as [_ [E W]]. split; [exact E|exact W].
Qed.

Lemma reachable_rel st : reachable st -> exists ast, rel st ast.
Proof.
  intros [ops [outs [Hok E]]]. pose proof (run_spec ops start astart rel_start Hok) as R.
  rewrite E in R. destruct R as [ast [_ R]]. exists ast. exact R.
Qed.
Lemma reachable_ok st i : reachable st -> ps_ok (st i).
Proof. intros H. destruct (reachable_rel st H) as [ast R]. apply (R i). Qed.

(* ---------- C01 ---------- *)
Lemma clean_cor st i : reachable st -> exists s, ps_clean (st i) = Some s /\
  ps_orient s = ps_orient (st i) /\ ps_dirty s = false /\ ps_unsorted s = false /\
  canonical (ps_data s) /\ closed (ps_data s) /\
  forall x y, ps_count s x y = b2z (ps_count (st i) x y >? 0).
Proof.
  intros H. destruct (ps_clean_spec _ (reachable_ok st i H)) as [s [K1 [K2 [K3 [K4 [K5 [K6 K7]]]]]]].
  exists s. repeat (split; [first [assumption|apply (ok_closed _ K2)]|]).
  intros x y. unfold ps_count. rewrite K3. exact (wind_map _ _ _ (fun c => b2z (c >? 0)) x y K7).
Qed.

(* ---------- C02 ---------- *)
Lemma b2z_bop_prop f a b : 0 < b2z (bop_fun f (a >? 0) (b >? 0)) <-> bop_prop f (0 < a) (0 < b).
Proof. apply bop_b2z; reflexivity. Qed.

Lemma view_cor st f i j : reachable st -> exists s, ps_assign_view f (st i) (st j) = Some s /\
  ps_orient s = ps_orient (st i) /\ canonical (ps_data s) /\
  forall x y, ps_covers s x y <-> bop_prop f (ps_covers (st i) x y) (ps_covers (st j) x y).
Proof.
  intros H. destruct (ps_assign_view_spec f _ _ (reachable_ok st i H) (reachable_ok st j H))
    as [s [K1 [K2 [K3 [_ [_ [K6 K]]]]]]].
  exists s. split; [exact K1|]. split; [exact K3|]. split; [exact K6|]. intros x y.
  unfold ps_covers, ps_count. rewrite K3, K. apply b2z_bop_prop.
Qed.
Lemma bin_assign_cor st f i j : reachable st -> exists s, ps_bin_assign f (st i) (st j) = Some s /\
  ps_orient s = ps_orient (st i) /\
  forall x y, ps_covers s x y <-> bop_prop f (ps_covers (st i) x y) (ps_covers (st j) x y).
Proof.
  intros H. destruct (ps_bin_assign_spec f _ _ (reachable_ok st i H) (reachable_ok st j H)) as [s [K1 [K2 [K3 K]]]].
  exists s. split; [exact K1|]. split; [exact K3|]. intros x y.
  unfold ps_covers, ps_count. rewrite K3, K. apply b2z_bop_prop.
Qed.

(* ---------- C03 ---------- *)
Lemma eq_cor st i j : reachable st -> ps_orient (st i) = ps_orient (st j) ->
  exists b s t, ps_eq (st i) (st j) = Some (b, (s, t)) /\
    (b = true <-> forall x y, ps_covers (st i) x y <-> ps_covers (st j) x y).
Proof.
  intros H E. destruct (ps_eq_spec _ _ (reachable_ok st i H) (reachable_ok st j H) E) as [b [s [t [K1 [_ [_ K]]]]]].
  exists b, s, t. split; [exact K1|exact K].
Qed.
Lemma equiv_cor st i j : reachable st ->
  exists b, ps_equivalence (st i) (st j) = Some b /\
    (b = true <-> forall x y, ps_covers (st i) x y <-> ps_covers (st j) x y).
Proof.
  intros H. exact (ps_equivalence_spec _ _ (reachable_ok st i H) (reachable_ok st j H)).
Qed.
Lemma clean_unique_cor st st' i j : reachable st -> reachable st' -> ps_orient (st i) = ps_orient (st' j) ->
  (forall x y, ps_covers (st i) x y <-> ps_covers (st' j) x y) ->
  exists s, ps_clean (st i) = Some s /\ ps_clean (st' j) = Some s.
Proof.
  intros H H' E G.
  destruct (clean_cor st i H) as [s [K1 [K2 [K3 [K4 [K5 [_ K7]]]]]]].
  destruct (clean_cor st' j H') as [t [L1 [L2 [L3 [L4 [L5 [_ L7]]]]]]].
  exists s. split; [exact K1|]. rewrite L1. f_equal.
  assert (D : ps_data t = ps_data s).
  { apply canonical_unique; [exact L5|exact K5|].
    assert (W : forall x y, ps_count t x y = ps_count s x y).
    { intros x y. rewrite K7, L7. specialize (G x y). unfold ps_covers in G. f_equal. lia. }
    unfold ps_count in W. rewrite K2, L2, <- E in W. intros x y.
    destruct (ps_orient (st i)); cbn [wind] in W; apply W. }
  destruct s as [so sd s1 s2], t as [to td t1 t2]. cbn [ps_orient ps_data ps_dirty ps_unsorted] in *.
  congruence.
Qed.

(* ---------- C04 ---------- *)
Lemma eval_spec st e : reachable st -> exists s, eval_bexp st e = Some s /\ ps_ok s /\
  ps_orient s = ps_orient (st (bexp_left e)) /\
  forall x y, ps_covers s x y <-> bexp_val (fun i => ps_count (st i) x y >? 0) e = true.
Proof.
  intros H. induction e as [i|f e1 IH1 e2 IH2].
  - exists (st i). split; [reflexivity|]. split; [apply reachable_ok; exact H|]. split; [reflexivity|].
    intros x y. unfold ps_covers. cbn [bexp_val]. lia.
  - destruct IH1 as [s1 [E1 [O1 [P1 C1]]]], IH2 as [s2 [E2 [O2 [P2 C2]]]].
    destruct (ps_assign_view_spec f s1 s2 O1 O2) as [s [K1 [K2 [K3 [_ [_ [_ K]]]]]]].
    exists s. cbn [eval_bexp]. rewrite E1, E2. cbn [bind]. split; [exact K1|]. split; [exact K2|].
    split; [cbn [bexp_left]; congruence|]. intros x y. unfold ps_covers, ps_count. rewrite K3, K.
    specialize (C1 x y). specialize (C2 x y). unfold ps_covers, ps_count in C1, C2. cbn [bexp_val].
    replace (wind (ps_orient s1) (ps_data s1) x y >? 0) with (bexp_val (fun i => ps_count (st i) x y >? 0) e1)
      by (unfold ps_count; lia).
    replace (wind (ps_orient s2) (ps_data s2) x y >? 0) with (bexp_val (fun i => ps_count (st i) x y >? 0) e2)
      by (unfold ps_count; lia).
    destruct (bop_fun f _ _); cbn [b2z]; split; intros; try reflexivity; try lia; discriminate.
Qed.
Lemma laws_cor st e1 e2 : reachable st -> bexp_equiv e1 e2 ->
  exists s1 s2, eval_bexp st e1 = Some s1 /\ eval_bexp st e2 = Some s2 /\
    ps_equivalence s1 s2 = Some true /\
    (ps_orient (st (bexp_left e1)) = ps_orient (st (bexp_left e2)) ->
     exists t1 t2, ps_eq s1 s2 = Some (true, (t1, t2))).
Proof.
  intros H E. destruct (eval_spec st e1 H) as [s1 [E1 [O1 [P1 C1]]]].
  destruct (eval_spec st e2 H) as [s2 [E2 [O2 [P2 C2]]]].
  assert (G : forall x y, ps_covers s1 x y <-> ps_covers s2 x y).
  { intros x y. rewrite C1, C2, (E _). reflexivity. }
  exists s1, s2. split; [exact E1|]. split; [exact E2|]. split.
  - destruct (ps_equivalence_spec s1 s2 O1 O2) as [b [K1 K2]]. rewrite K1. f_equal. apply K2. exact G.
  - intros Eo. destruct (ps_eq_spec s1 s2 O1 O2 ltac:(congruence)) as [b [t1 [t2 [K1 [_ [_ K2]]]]]].
    exists t1, t2. rewrite K1. repeat f_equal. apply K2. exact G.
Qed.

(* ---------- C06 (rectangles) ---------- *)
Lemma insert_rect_cor st i r hole : reachable st -> rect_ok r ->
  is_int (xl r) -> is_int (xh r) -> is_int (yl r) -> is_int (yh r) ->
  ps_orient (ps_insert_rect (st i) r hole) = ps_orient (st i) /\
  forall x y, ps_count (ps_insert_rect (st i) r hole) x y =
    ps_count (st i) x y + (if in_rect r x y then (if hole then -1 else 1) else 0).
Proof.
  intros H Hr I1 I2 I3 I4.
  destruct (ps_insert_rect_spec (st i) r hole (reachable_ok st i H) Hr I1 I2 I3 I4) as [_ [B C]].
  split; [exact B|]. intros x y. unfold ps_count. rewrite B. apply C.
Qed.

(* ---------- C07 ---------- *)
Lemma move_cor st i dx dy : reachable st ->
  match ps_move dx dy (st i) with
  | Ok s => ps_orient s = ps_orient (st i) /\
      forall x y, ps_count s (x + dx) (y + dy) = ps_count (st i) x y
  | Overflow => True
  | Undefined => False
  end.
Proof.
  intros H. pose proof (ps_move_spec dx dy _ (reachable_ok st i H)) as K.
  destruct (ps_move dx dy (st i)) as [s| |]; try exact K. destruct K as [_ [K2 K3]].
  split; [exact K2|]. intros x y. unfold ps_count. rewrite K2, K3. f_equal; lia.
Qed.
Lemma transform_cor st i t : reachable st -> 0 <= iso_atr t < 8 ->
  match ps_transform t (st i) with
  | Ok s => ps_orient s = ps_orient (st i) /\
      forall c d, maps_cell t c d -> ps_count s (fst d) (snd d) = ps_count (st i) (fst c) (snd c)
  | Overflow => True
  | Undefined => False
  end.
Proof.
  intros H Ht. pose proof (ps_transform_spec t _ Ht (reachable_ok st i H)) as K.
  destruct (ps_transform t (st i)) as [s| |]; try exact K. destruct K as [_ [K2 K3]].
  split; [exact K2|]. intros c d M. apply maps_cell_iso in M; [|exact Ht]. subst c.
  unfold ps_count. rewrite K2, K3. destruct d. reflexivity.
Qed.
Lemma scale_up_cor st i k : reachable st -> 0 < k ->
  match ps_scale_up k (st i) with
  | Ok s => ps_orient s = ps_orient (st i) /\
      forall x y, ps_count s x y = ps_count (st i) (x / k) (y / k)
  | Overflow => True
  | Undefined => False
  end.
Proof.
  intros H Hk. pose proof (ps_scale_up_spec k _ Hk (reachable_ok st i H)) as K.
  destruct (ps_scale_up k (st i)) as [s| |]; try exact K. destruct K as [_ [K2 K3]].
  split; [exact K2|]. intros x y. unfold ps_count. rewrite K2, K3. reflexivity.
Qed.
Lemma map_vertices_total g l : (forall v, In v l -> exists v', g v = Ok v') -> exists l', map_vertices g l = Ok l'.
Proof.
  induction l as [|v l IH]; intros H; cbn [map_vertices]; [eexists; reflexivity|].
  destruct (H v (or_introl eq_refl)) as [v' ->]. cbn [obind].
  destruct IH as [l' ->]; [intros w Hw; apply H; right; exact Hw|]. cbn [obind]. eexists. reflexivity.
Qed.
(* no overflow if the images of the vertices are representable *)
Lemma move_total s dx dy :
  (forall v, In v (ps_data s) -> is_int (fst (vertex_point (ps_orient s) v) + dx) /\
                                 is_int (snd (vertex_point (ps_orient s) v) + dy)) ->
  exists s', ps_move dx dy s = Ok s'.
Proof.
  intros H. unfold ps_move. destruct (ps_orient s); cbn [vertex_point fst snd] in H;
    (edestruct map_vertices_total as [l' E]; [|rewrite E; cbn [obind]; eexists; reflexivity]);
    intros v Hv; destruct (H v Hv) as [I1 I2]; rewrite !chk_int by assumption; cbn [obind]; eexists; reflexivity.
Qed.
Lemma scale_up_total s k :
  (forall v, In v (ps_data s) -> is_int (vx v * k) /\ is_int (vy v * k)) ->
  exists s', ps_scale_up k s = Ok s'.
Proof.
  intros H. unfold ps_scale_up.
  edestruct map_vertices_total as [l' E]; [|rewrite E; cbn [obind]; eexists; reflexivity].
  intros v Hv; destruct (H v Hv) as [I1 I2]; rewrite !chk_int by assumption; cbn [obind]; eexists; reflexivity.
Qed.

(* ---------- C08 ---------- *)
(* the cells whose low corner is rounded to x come from this one *)
Definition unround (k x : Z) : Z := (2 * k * x + k - 1) / 2.
Lemma round_div_le k v x : 0 < k -> (round_div v k <=? x) = (v <=? unround k x).
Proof.
  intros Hk. unfold round_div, unround.
  destruct (Z.leb_spec ((2 * v + k) / (2 * k)) x) as [H|H]; destruct (Z.leb_spec v ((2 * k * x + k - 1) / 2)) as [G|G];
    try reflexivity; exfalso.
  - assert (2 * v + k < 2 * k * (x + 1)).
    { pose proof (Z.div_mod (2 * v + k) (2 * k) ltac:(lia)). pose proof (Z.mod_pos_bound (2 * v + k) (2 * k) ltac:(lia)). nia. }
    assert (v <= (2 * k * x + k - 1) / 2); [|lia]. apply Z.div_le_lower_bound; lia.
  - assert (x + 1 <= (2 * v + k) / (2 * k)) by lia.
    assert (2 * k * (x + 1) <= 2 * v + k).
    { pose proof (Z.mul_div_le (2 * v + k) (2 * k) ltac:(lia)). nia. }
    pose proof (Z.mul_div_le (2 * k * x + k - 1) 2 ltac:(lia)). lia.
Qed.
Lemma scale_down_cnt k V x y : 0 < k ->
  cnt (map (fun v => (round_div (vx v) k, (round_div (vy v) k, vc v))) V) x y = cnt V (unround k x) (unround k y).
Proof.
  intros Hk. induction V as [|v V IH]; [reflexivity|]. cbn [map cnt]. rewrite IH.
  unfold vx, vy, vc. cbn [fst snd]. rewrite !round_div_le by exact Hk. reflexivity.
Qed.
Lemma scale_down_count k s x y : 0 < k ->
  ps_count (ps_scale_down k s) x y = ps_count s (unround k x) (unround k y).
Proof.
  intros Hk. unfold ps_count, ps_scale_down. cbn [ps_orient ps_data].
  destruct (ps_orient s); cbn [wind]; apply scale_down_cnt; exact Hk.
Qed.
Lemma scale_down_image_cor k s x y : 0 < k -> exists u v,
  (forall a r, rounds_to a k r -> (r <= x <-> a <= u)) /\
  (forall a r, rounds_to a k r -> (r <= y <-> a <= v)) /\
  ps_count (ps_scale_down k s) x y = ps_count s u v.
Proof.
  intros Hk. exists (unround k x), (unround k y).
  assert (R : forall a r, rounds_to a k r -> r = round_div a k).
  { intros a r [H1 H2]. unfold round_div. apply (Z.div_unique_pos _ _ _ (2 * a + k - 2 * k * r)); lia. }
  assert (G : forall z a r, rounds_to a k r -> (r <= z <-> a <= unround k z)).
  { intros z a r H. rewrite (R _ _ H). pose proof (round_div_le k a z Hk). lia. }
  split; [apply G|]. split; [apply G|]. apply scale_down_count. exact Hk.
Qed.
Lemma round_div_int k v : 0 < k -> is_int v -> is_int (round_div v k).
Proof.
  unfold is_int, INT_MIN, INT_MAX, round_div. intros Hk [H1 H2]. split.
  - apply Z.div_le_lower_bound; nia.
  - assert ((2 * v + k) / (2 * k) < 2147483648); [|lia]. apply Z.div_lt_upper_bound; nia.
Qed.
Lemma scale_down_ok k s : 0 < k -> ps_ok s -> ps_dirty s = true -> ps_ok (ps_scale_down k s).
Proof.
  intros Hk Hok D. constructor; cbn [ps_scale_down ps_data ps_dirty ps_unsorted]; try discriminate; try congruence.
  - pose proof (ok_closed _ Hok) as C. apply closed_bounded in C. destruct C as [M HM]. apply closed_bounded.
    exists (Z.max 0 M + 1). intros x y H. rewrite scale_down_cnt by exact Hk. apply HM. unfold unround.
    assert (Hlo : forall z, z < - (Z.max 0 M + 1) -> (2 * k * z + k - 1) / 2 < - M).
    { intros z Hz. apply Z.div_lt_upper_bound; nia. }
    assert (Hhi : forall z, Z.max 0 M + 1 < z -> M < (2 * k * z + k - 1) / 2).
    { intros z Hz. enough (Z.max 0 M + 1 <= (2 * k * z + k - 1) / 2) by lia. apply Z.div_le_lower_bound; nia. }
    destruct H as [H|[H|[H|H]]]; auto.
  - apply Forall_map. eapply Forall_impl; [|apply (ok_int _ Hok)]. intros v [I1 I2].
    split; apply round_div_int; assumption.
Qed.
Lemma scale_down_dirty_cor st i j k : reachable st -> 0 < k ->
  ps_dirty (st i) = true -> ps_dirty (st j) = true ->
  (exists b s, ps_empty (ps_scale_down k (st i)) = Some (b, s) /\
     (b = true <-> forall x y, ~ ps_covers (ps_scale_down k (st i)) x y)) /\
  (ps_orient (st i) = ps_orient (st j) ->
   exists b p, ps_eq (ps_scale_down k (st i)) (ps_scale_down k (st j)) = Some (b, p) /\
     (b = true <-> forall x y, ps_covers (ps_scale_down k (st i)) x y <-> ps_covers (ps_scale_down k (st j)) x y)).
Proof.
  intros H Hk Di Dj.
  pose proof (scale_down_ok k _ Hk (reachable_ok st i H) Di) as Oi.
  pose proof (scale_down_ok k _ Hk (reachable_ok st j H) Dj) as Oj.
  split.
  - destruct (ps_empty_spec _ Oi) as [b [s [K1 [_ K]]]]. exists b, s. split; [exact K1|exact K].
  - intros E. destruct (ps_eq_spec _ _ Oi Oj E) as [b [s [t [K1 [_ [_ K]]]]]].
    exists b, (s, t). split; [exact K1|exact K].
Qed.

(* ---------- C09 ---------- *)
Lemma self_xor_cor st i : reachable st -> exists s, ps_self_xor (st i) = Some s /\
  ps_orient s = ps_orient (st i) /\
  forall x y, ps_covers s x y <-> 0 < ps_count (st i) x y /\ Z.Odd (ps_count (st i) x y).
Proof.
  intros H. destruct (ps_self_xor_spec _ (reachable_ok st i H)) as [s [K1 [K2 [K3 [_ K]]]]].
  exists s. split; [exact K1|]. split; [exact K3|]. intros x y. unfold ps_covers, ps_count.
  rewrite K3, (wind_map _ _ _ (fun c => b2z ((c >? 0) && Z.odd c)) x y K).
  set (w := wind (ps_orient (st i)) (ps_data (st i)) x y).
  rewrite <- Z.odd_spec. destruct (Z.gtb_spec w 0), (Z.odd w); cbn [andb b2z]; split; intros G; try lia;
    try (destruct G; discriminate).
Qed.
Lemma self_intersect_cor st i : reachable st -> exists s, ps_self_intersect (st i) = Some s /\
  ps_orient s = ps_orient (st i) /\
  (ps_dirty (st i) = true -> forall x y, ps_covers s x y <-> 1 < ps_count (st i) x y) /\
  (ps_dirty (st i) = false -> forall x y, ps_covers s x y <-> ps_covers (st i) x y).
Proof.
  intros H. destruct (ps_self_intersect_spec _ (reachable_ok st i H)) as [s [K1 [K2 [K3 [_ K]]]]].
  exists s. split; [exact K1|]. split; [exact K3|]. unfold ps_covers, ps_count.
  split; intros D x y; rewrite K3, K, D; [|reflexivity].
  destruct (Z.gtb_spec (wind (ps_orient (st i)) (ps_data (st i)) x y) 1); cbn [b2z]; lia.
Qed.

(* ---------- C11 ---------- *)
Lemma extents_cor st i : reachable st -> exists r s, ps_extents (st i) = Some (r, s) /\
  match r with
  | None => forall x y, ~ ps_covers (st i) x y
  | Some r => bounding_box (ps_covers (st i)) r
  end.
Proof.
  intros H. destruct (ps_extents_spec _ (reachable_ok st i H)) as [r [s [K1 [_ K]]]].
  exists r, s. split; [exact K1|]. destruct r; exact K.
Qed.

(* ---------- const queries ---------- *)
Lemma req_refl s : req s s.
Proof. intros i. split; [reflexivity|]. intros; reflexivity. Qed.
Lemma req_sym s t : req s t -> req t s.
Proof. intros H i. destruct (H i) as [E W]. split; [congruence|]. intros x y. rewrite W. reflexivity. Qed.
Lemma req_trans s t u : req s t -> req t u -> req s u.
Proof.
  intros H1 H2 i. destruct (H1 i) as [E1 W1], (H2 i) as [E2 W2]. split; [congruence|].
  intros x y. rewrite W1. apply W2.
Qed.
Lemma req_rset s t i a b : req s t -> fst a = fst b -> (forall x y, snd a x y <-> snd b x y) ->
  req (rset s i a) (rset t i b).
Proof. intros H E W j. unfold rset. destruct (Nat.eqb j i); [split; assumption|apply H]. Qed.
Lemma reffect_det s t o s' t' : req s t -> reffect s o s' -> reffect t o t' -> req s' t'.
Proof.
  intros H Hs Ht. assert (HE : forall i, fst (s i) = fst (t i)) by apply H.
  assert (HW : forall i x y, snd (s i) x y <-> snd (t i) x y) by (intros i; apply H).
  destruct o as [i o|i j|i|i r hole|i p hole|i j|k f i j|i f j|i dx dy|i u|i k|i|i|i|i|i j|i j|i];
    cbn [reffect] in Hs, Ht; try contradiction; subst; try exact H;
    apply req_rset; try exact H; cbn [fst snd]; try apply HE; try reflexivity; intros x y; rewrite ?HW; try reflexivity.
  - destruct f; cbn [bop_prop]; rewrite !HW; reflexivity.
  - destruct f; cbn [bop_prop]; rewrite !HW; reflexivity.
  - split; intros [c [M G]]; exists c; (split; [exact M|]); apply HW; exact G.
Qed.
Lemma bbox_unique P r1 r2 : bounding_box P r1 -> bounding_box P r2 -> r1 = r2.
Proof.
  intros [A0 [[a1 A1] [[a2 A2] [[a3 A3] [a4 A4]]]]] [B0 [[b1 B1] [[b2 B2] [[b3 B3] [b4 B4]]]]].
  pose proof (A0 _ _ B1). pose proof (A0 _ _ B2). pose proof (A0 _ _ B3). pose proof (A0 _ _ B4).
  pose proof (B0 _ _ A1). pose proof (B0 _ _ A2). pose proof (B0 _ _ A3). pose proof (B0 _ _ A4).
  destruct r1 as [p1 p2 p3 p4], r2 as [q1 q2 q3 q4]. unfold in_rect in *. cbn [xl xh yl yh] in *. f_equal; lia.
Qed.
Lemma bbox_iff P Q r : (forall x y, P x y <-> Q x y) -> bounding_box P r -> bounding_box Q r.
Proof.
  intros H [A0 [[a1 A1] [[a2 A2] [[a3 A3] [a4 A4]]]]].
  split; [intros x y G; apply A0; apply H; exact G|].
  split; [exists a1|split; [exists a2|split; [exists a3|exists a4]]]; apply H; assumption.
Qed.
Lemma iff_bool_eq (a b : bool) (P Q : Prop) : (a = true <-> P) -> (b = true <-> Q) -> (P <-> Q) -> a = b.
Proof. intros H1 H2 H3. destruct a, b; try reflexivity; exfalso; [assert (false = true) by tauto|assert (false = true) by tauto]; discriminate. Qed.
Lemma ranswers_det s t o a b : req s t -> ranswers s o a -> ranswers t o b -> a = b.
Proof.
  intros H Ha Hb. assert (HE : forall i, fst (s i) = fst (t i)) by apply H.
  assert (HW : forall i x y, snd (s i) x y <-> snd (t i) x y) by (intros i; apply H).
  destruct o as [i o|i j|i|i r hole|i p hole|i j|k f i j|i f j|i dx dy|i u|i k|i|i|i|i|i j|i j|i];
    cbn [ranswers] in Ha, Hb; try congruence.
  - destruct Ha as [x [-> Hx]], Hb as [y [-> Hy]]. do 2 f_equal. eapply iff_bool_eq; [exact Hx|exact Hy|].
    split; intros G a b C; apply (G a b); apply HW; exact C.
  - destruct Ha as [x [-> Hx]], Hb as [y [-> Hy]]. do 2 f_equal. eapply iff_bool_eq; [exact Hx|exact Hy|].
    rewrite !HE. split; intros [G1 G2]; (split; [exact G1|]); intros a b; specialize (G2 a b);
      pose proof (HW i a b); pose proof (HW j a b); tauto.
  - destruct Ha as [x [-> Hx]], Hb as [y [-> Hy]]. do 2 f_equal. eapply iff_bool_eq; [exact Hx|exact Hy|].
    split; intros G2 a b; specialize (G2 a b); pose proof (HW i a b); pose proof (HW j a b); tauto.
  - destruct Ha as [[-> Ga]|[ra [-> Ga]]], Hb as [[-> Gb]|[rb [-> Gb]]]; try reflexivity.
    + exfalso. destruct Gb as [_ [[y G] _]]. apply (Ga (xl rb) y). apply HW. exact G.
    + exfalso. destruct Ga as [_ [[y G] _]]. apply (Gb (xl ra) y). apply HW. exact G.
    + repeat f_equal. eapply bbox_unique; [exact Ga|]. eapply bbox_iff; [|exact Gb].
      intros x y. symmetry. apply HW.
Qed.
Lemma rruns_det ops : forall s t s' t' a b, req s t -> rruns s ops s' a -> rruns t ops t' b -> req s' t' /\ a = b.
Proof.
  induction ops as [|o ops IH]; intros s t s' t' a b H Ra Rb.
  - inversion Ra as [? ? E1|]; inversion Rb as [? ? E2|]; subst. split; [|reflexivity].
    eapply req_trans; [apply req_sym; exact E1|]. eapply req_trans; [exact H|exact E2].
  - inversion Ra as [|? ? ? s1 ? outa outsa Ea Aa Ra']; subst.
    inversion Rb as [|? ? ? t1 ? outb outsb Eb Ab Rb']; subst.
    pose proof (ranswers_det _ _ _ _ _ H Aa Ab) as ->.
    destruct (IH _ _ _ _ _ _ (reffect_det _ _ _ _ _ H Ea Eb) Ra' Rb') as [Q ->].
    split; [exact Q|reflexivity].
Qed.
Lemma rruns_app ops1 ops2 : forall s t outs, rruns s (ops1 ++ ops2) t outs ->
  exists u o1 o2, rruns s ops1 u o1 /\ rruns u ops2 t o2 /\ outs = o1 ++ o2.
Proof.
  induction ops1 as [|o ops1 IH]; intros s t outs R.
  - exists s, [], outs. split; [constructor; apply req_refl|]. split; [exact R|reflexivity].
  - cbn [app] in R. inversion R as [|? ? ? s1 ? out outs' E A R']; subst.
    destruct (IH _ _ _ R') as [u [o1 [o2 [R1 [R2 ->]]]]].
    exists u, (out ++ o1), o2. split; [econstructor; eassumption|]. split; [exact R2|]. apply app_assoc.
Qed.

Lemma pure_query_cor ops1 q ops2 : Forall op_ok (ops1 ++ q :: ops2) -> Forall hole_free (ops1 ++ q :: ops2) ->
  is_query q -> forall st1 out1 st2 out2,
  run start (ops1 ++ q :: ops2) = Ok (st1, out1) -> run start (ops1 ++ ops2) = Ok (st2, out2) ->
  (exists a b c, out1 = a ++ b ++ c /\ out2 = a ++ c) /\
  forall i, ps_orient (st1 i) = ps_orient (st2 i) /\ forall x y, ps_covers (st1 i) x y <-> ps_covers (st2 i) x y.
Proof.
  intros Hok Hh Hq st1 out1 st2 out2 E1 E2.
  assert (Hok' : Forall op_ok (ops1 ++ ops2)).
  { apply Forall_app in Hok. destruct Hok as [A B]. inversion B; subst. apply Forall_app. split; assumption. }
  assert (Hh' : Forall hole_free (ops1 ++ ops2)).
  { apply Forall_app in Hh. destruct Hh as [A B]. inversion B; subst. apply Forall_app. split; assumption. }
  pose proof (run_region_spec _ Hok Hh) as R1. rewrite E1 in R1. destruct R1 as [r1 [R1 W1]].
  pose proof (run_region_spec _ Hok' Hh') as R2. rewrite E2 in R2. destruct R2 as [r2 [R2 W2]].
  destruct (rruns_app _ _ _ _ _ R1) as [u [a [bc [A1 [A2 ->]]]]].
  destruct (rruns_app _ _ _ _ _ R2) as [v [a' [c' [B1 [B2 ->]]]]].
  inversion A2 as [|? ? ? u1 ? b c Eq Aq Rq]; subst.
  assert (u1 = u) by (destruct q; cbn [is_query reffect] in *; try contradiction; exact Eq). subst u1.
  destruct (rruns_det _ _ _ _ _ _ _ (req_refl _) A1 B1) as [Huv <-].
  destruct (rruns_det _ _ _ _ _ _ _ Huv Rq B2) as [Hr <-].
  split; [exists a, b, c; split; reflexivity|].
  intros i. destruct (W1 i) as [P1 Q1], (W2 i) as [P2 Q2], (Hr i) as [Er Wr].
  split; [congruence|]. intros x y. unfold ps_covers, ps_count.
  rewrite (proj2 (Q1 x y)), (proj2 (Q2 x y)). apply Wr.
Qed.

(* ---------- counterexamples ---------- *)
Lemma by_run ops st outs : Forall op_ok ops -> run start ops = Ok (st, outs) -> reachable st.
Proof. intros H E. exists ops, outs. split; assumption. Qed.
