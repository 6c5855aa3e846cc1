From Verif Require Import Base Scan90Spec Set90Spec Set90Model GeoSpec IvlModel.

(* copies the inequalities over Z to Q *)
Ltac zq :=
  repeat match goal with
  | H : (?a <= ?b)%Z |- _ => lazymatch goal with K : (inject_Z a <= inject_Z b)%Q |- _ => fail | _ => idtac end;
      assert ((inject_Z a <= inject_Z b)%Q) by (rewrite <- Zle_Qle; exact H); revert H
  | H : (?a < ?b)%Z |- _ => lazymatch goal with K : (inject_Z a < inject_Z b)%Q |- _ => fail | _ => idtac end;
      assert ((inject_Z a < inject_Z b)%Q) by (rewrite <- Zlt_Qlt; exact H); revert H
  end; intros;
  repeat rewrite ?inject_Z_plus, ?inject_Z_opp, ?inject_Z_mult in *; try unfold Z.sub in *;
  repeat rewrite ?inject_Z_plus, ?inject_Z_opp, ?inject_Z_mult in *.

Lemma Zle_Q a b : (inject_Z a <= inject_Z b)%Q <-> a <= b.
Proof. rewrite <- Zle_Qle. reflexivity. Qed.
Lemma Zlt_Q a b : (inject_Z a < inject_Z b)%Q <-> a < b.
Proof. rewrite <- Zlt_Qlt. reflexivity. Qed.
Lemma injZ_eq a b : (inject_Z a == inject_Z b)%Q <-> a = b.
Proof. apply inject_Z_injective. Qed.
Lemma injZ_sub a b : (inject_Z (a - b) == inject_Z a - inject_Z b)%Q.
Proof. unfold Z.sub. rewrite inject_Z_plus, inject_Z_opp. reflexivity. Qed.
(* between two rationals that are comparable in Z there is a midpoint *)
Definition mid (a b : Q) : Q := ((a + b) * (1 # 2))%Q.
Lemma mid_lt a b : (a < b)%Q -> (a < mid a b)%Q /\ (mid a b < b)%Q.
Proof. unfold mid. intros. split; lra. Qed.

Lemma contains_v_spec i v touch : contains_v i v touch = true <-> in_ivl touch i (inject_Z v).
Proof. unfold contains_v, in_ivl. destruct touch; rewrite ?Zle_Q, ?Zlt_Q; lia. Qed.

Lemma contains_i_spec i j touch : ivl_ok j ->
  (contains_i i j touch = true <-> forall q, in_ivl true j q -> in_ivl touch i q).
Proof.
  unfold contains_i, ivl_ok. intros J. rewrite andb_true_iff, !contains_v_spec. split.
  - intros [A B] q [C D]. unfold in_ivl in *. destruct touch; split; lra.
  - intros H. split; apply H; unfold in_ivl; rewrite ?Zle_Q; lia.
Qed.

(* common points of a closed set and a closed set, or of two open intervals *)
Lemma intersects_touch i j : ivl_ok i -> ivl_ok j ->
  (intersects_i i j true = true <-> exists q, in_ivl true i q /\ in_ivl true j q).
Proof.
  unfold intersects_i, ivl_ok, in_ivl. intros A B. split.
  - intros H. exists (inject_Z (Z.max (lo i) (lo j))). rewrite !Zle_Q. lia.
  - intros [q [[C D] [E F]]].
    assert ((inject_Z (lo i) <= inject_Z (hi j))%Q) by lra.
    assert ((inject_Z (lo j) <= inject_Z (hi i))%Q) by lra. rewrite Zle_Q in *. lia.
Qed.
Lemma intersects_open i j : lo i < hi i -> lo j < hi j ->
  (intersects_i i j false = true <-> exists q, in_ivl false i q /\ in_ivl false j q).
Proof.
  unfold intersects_i, in_ivl. intros A B. split.
  - intros H. set (l := Z.max (lo i) (lo j)). set (h := Z.min (hi i) (hi j)).
    assert (L : l < h) by lia. rewrite Zlt_Qlt in L. destruct (mid_lt _ _ L) as [M1 M2].
    exists (mid (inject_Z l) (inject_Z h)).
    assert (L1 : lo i <= l) by lia. assert (L2 : lo j <= l) by lia.
    assert (L3 : h <= hi i) by lia. assert (L4 : h <= hi j) by lia.
    rewrite Zle_Qle in L1, L2, L3, L4. repeat split; lra.
  - intros [q [[C D] [E F]]].
    assert ((inject_Z (lo i) < inject_Z (hi j))%Q) by lra.
    assert ((inject_Z (lo j) < inject_Z (hi i))%Q) by lra. rewrite Zlt_Q in *. lia.
Qed.
(* a degenerate interval intersects an interval in the open mode if its point
   is an inner point of the interval *)
Lemma intersects_open_deg i j : lo i = hi i ->
  (intersects_i i j false = true <-> in_ivl false j (inject_Z (lo i))).
Proof. unfold intersects_i, in_ivl. intros A. rewrite !Zlt_Q. lia. Qed.
Lemma intersects_sym i j touch : intersects_i i j touch = intersects_i j i touch.
Proof. unfold intersects_i. destruct touch; lia. Qed.

Lemma boundaries_spec i j touch :
  boundaries_intersect_i i j touch = true <->
  (exists v, end_point j v /\ in_ivl touch i (inject_Z v)) /\
  (exists v, end_point i v /\ in_ivl touch j (inject_Z v)).
Proof.
  unfold boundaries_intersect_i, end_point. rewrite andb_true_iff, !orb_true_iff, !contains_v_spec.
  split; intros [H K]; split.
  - destruct H; eexists; split; try eassumption; auto.
  - destruct K; eexists; split; try eassumption; auto.
  - destruct H as [v [[->| ->] H]]; auto.
  - destruct K as [v [[->| ->] K]]; auto.
Qed.

Lemma intersect_i_spec i j touch :
  fst (intersect_i i j touch) = (Z.max (lo i) (lo j) <? Z.min (hi i) (hi j) + b2z touch) /\
  (fst (intersect_i i j touch) = true ->
     (forall q, in_ivl true (snd (intersect_i i j touch)) q <-> in_ivl true i q /\ in_ivl true j q) /\
     (forall q, in_ivl false (snd (intersect_i i j touch)) q <-> in_ivl false i q /\ in_ivl false j q)) /\
  (fst (intersect_i i j touch) = false -> snd (intersect_i i j touch) = i).
Proof.
  unfold intersect_i.
  assert (E : (if touch then Z.max (lo i) (lo j) <=? Z.min (hi i) (hi j) else Z.max (lo i) (lo j) <? Z.min (hi i) (hi j))
              = (Z.max (lo i) (lo j) <? Z.min (hi i) (hi j) + b2z touch)) by (destruct touch; cbn [b2z]; lia).
  rewrite E. destruct (Z.max (lo i) (lo j) <? Z.min (hi i) (hi j) + b2z touch); cbn [fst snd].
  - split; [reflexivity|]. split; [|discriminate]. intros _. unfold in_ivl; cbn [lo hi].
    destruct (Z.max_spec (lo i) (lo j)) as [[A ->]|[A ->]]; destruct (Z.min_spec (hi i) (hi j)) as [[B ->]|[B ->]];
      zq; split; intros q; split; intros; intuition lra.
  - split; [reflexivity|]. split; [discriminate|reflexivity].
Qed.
Lemma intersect_i_touch i j : ivl_ok i -> ivl_ok j ->
  (fst (intersect_i i j true) = true <-> exists q, in_ivl true i q /\ in_ivl true j q).
Proof.
  intros A B. rewrite <- intersects_touch by assumption. unfold intersect_i, intersects_i, ivl_ok in *.
  destruct (Z.max (lo i) (lo j) <=? Z.min (hi i) (hi j)) eqn:E; cbn [fst]; lia.
Qed.
Lemma intersect_i_open i j :
  (fst (intersect_i i j false) = true <-> exists q, in_ivl false i q /\ in_ivl false j q).
Proof.
  unfold intersect_i. set (l := Z.max (lo i) (lo j)). set (h := Z.min (hi i) (hi j)).
  transitivity (l < h); [destruct (l <? h) eqn:E; cbn [fst]; lia|].
  unfold in_ivl. split.
  - intros L. rewrite Zlt_Qlt in L. destruct (mid_lt _ _ L) as [M1 M2].
    exists (mid (inject_Z l) (inject_Z h)).
    assert (L1 : lo i <= l) by lia. assert (L2 : lo j <= l) by lia.
    assert (L3 : h <= hi i) by lia. assert (L4 : h <= hi j) by lia.
    rewrite Zle_Qle in L1, L2, L3, L4. repeat split; lra.
  - intros [q [[C D] [E F]]].
    assert ((inject_Z (lo i) < inject_Z (hi j))%Q) by lra.
    assert ((inject_Z (lo j) < inject_Z (hi i))%Q) by lra.
    assert ((inject_Z (lo i) < inject_Z (hi i))%Q) by lra.
    assert ((inject_Z (lo j) < inject_Z (hi j))%Q) by lra. rewrite Zlt_Q in *. lia.
Qed.
Lemma intersect_i_ok i j touch : ivl_ok i -> ivl_ok (snd (intersect_i i j touch)).
Proof. unfold intersect_i, ivl_ok. intros H. destruct touch; match goal with |- context [if ?b then _ else _] => destruct b eqn:E end; cbn [snd lo hi]; lia. Qed.

Lemma encompass_i_hull i j : ivl_ok i -> ivl_ok j -> hull i j (snd (encompass_i i j)).
Proof.
  unfold ivl_ok, hull, encompass_i, in_ivl. intros A B. cbn [snd lo hi]. split.
  - intros q [[C D]|[C D]].
    + assert (L1 : Z.min (lo i) (lo j) <= lo i) by lia. assert (L2 : hi i <= Z.max (hi i) (hi j)) by lia.
      rewrite Zle_Qle in L1, L2. split; lra.
    + assert (L1 : Z.min (lo i) (lo j) <= lo j) by lia. assert (L2 : hi j <= Z.max (hi i) (hi j)) by lia.
      rewrite Zle_Qle in L1, L2. split; lra.
  - intros h H q [C D].
    pose proof (H (inject_Z (lo i))) as H1. pose proof (H (inject_Z (hi i))) as H2.
    pose proof (H (inject_Z (lo j))) as H3. pose proof (H (inject_Z (hi j))) as H4.
    rewrite !Zle_Q in H1, H2, H3, H4.
    assert (L1 : lo h <= Z.min (lo i) (lo j)) by lia. assert (L2 : Z.max (hi i) (hi j) <= hi h) by lia.
    rewrite Zle_Qle in L1, L2. split; lra.
Qed.
Lemma encompass_i_ret i j : ivl_ok i -> ivl_ok j ->
  (fst (encompass_i i j) = true <-> ~ forall q, in_ivl true j q -> in_ivl true i q) /\
  (fst (encompass_i i j) = false -> snd (encompass_i i j) = i).
Proof.
  intros A B. rewrite <- (contains_i_spec i j true B). unfold encompass_i. cbn [fst snd]. split.
  - destruct (contains_i i j true); cbn [negb]; split; congruence.
  - unfold contains_i, contains_v, ivl_ok in *. destruct i as [a b]; cbn [lo hi] in *. intros H. f_equal; lia.
Qed.
Lemma encompass_v_as i v : encompass_v i v = encompass_i i (mk_ivl v v).
Proof. unfold encompass_v, encompass_i, contains_i. cbn [lo hi]. destruct (contains_v i v true); reflexivity. Qed.

Lemma abuts_spec i j : lo i < hi i -> lo j < hi j ->
  (abuts_i i j = true <-> (exists q, in_ivl true i q /\ in_ivl true j q) /\ ~ (exists q, in_ivl false i q /\ in_ivl false j q)).
Proof.
  intros A B. rewrite <- intersects_touch, <- intersects_open by (unfold ivl_ok; lia).
  unfold abuts_i, abuts_dir_i, intersects_i. lia.
Qed.
Lemma abuts_dir_spec i j : abuts_dir_i i j true = true <-> hi i = lo j.
Proof. unfold abuts_dir_i. lia. Qed.
Lemma abuts_dir_spec2 i j : abuts_dir_i i j false = true <-> hi j = lo i.
Proof. unfold abuts_dir_i. lia. Qed.

Lemma join_spec i j : ivl_ok i -> ivl_ok j ->
  (fst (join_with_i i j) = abuts_i i j) /\
  (fst (join_with_i i j) = true -> forall q, in_ivl true (snd (join_with_i i j)) q <-> in_ivl true i q \/ in_ivl true j q) /\
  (fst (join_with_i i j) = false -> snd (join_with_i i j) = i).
Proof.
  unfold join_with_i, ivl_ok. intros A B. destruct (abuts_i i j) eqn:E; cbn [fst snd].
  - split; [reflexivity|]. split; [|discriminate]. intros _ q. unfold encompass_i. cbn [snd]. unfold in_ivl; cbn [lo hi].
    unfold abuts_i, abuts_dir_i in E.
    assert (C : (hi i = lo j \/ hi j = lo i)) by lia.
    destruct C as [C|C].
    + rewrite Z.min_l, Z.max_r by lia. rewrite <- C in *. zq. intuition lra.
    + rewrite Z.min_r, Z.max_l by lia. rewrite <- C in *. zq. intuition lra.
  - split; [reflexivity|]. split; [discriminate|reflexivity].
Qed.
(* overlapping intervals are not joined *)
Lemma join_overlap_refuted : exists i j, ivl_ok i /\ ivl_ok j /\ intersects_i i j false = true /\ fst (join_with_i i j) = false.
Proof. exists (mk_ivl 0 5), (mk_ivl 3 8). unfold ivl_ok; cbn [lo hi]. vm_compute. repeat split; discriminate. Qed.

Lemma zsort_4 a b c d : a <= b -> c <= d -> nth 1 (zsort [a; b; c; d]) 0 = Z.min (Z.max a c) (Z.min b d) /\
  nth 2 (zsort [a; b; c; d]) 0 = Z.max (Z.max a c) (Z.min b d).
Proof.
  intros A B. unfold zsort.
  repeat first [progress cbn [zinsert nth] | match goal with |- context [?x <=? ?y] => destruct (x <=? y) eqn:?; cbn [zinsert nth] end];
  lia.
Qed.
Lemma generalized_spec i j : ivl_ok i -> ivl_ok j ->
  ivl_ok (generalized_intersect_i i j) /\
  (intersects_i i j true = true -> generalized_intersect_i i j = snd (intersect_i i j true)) /\
  (intersects_i i j true = false ->
     forall q, in_ivl true (generalized_intersect_i i j) q <->
       (forall p r, in_ivl true i p -> in_ivl true j r -> (p <= q <= r)%Q) \/
       (forall p r, in_ivl true i p -> in_ivl true j r -> (r <= q <= p)%Q)).
Proof.
  unfold ivl_ok. intros A B. unfold generalized_intersect_i.
  destruct (zsort_4 (lo i) (hi i) (lo j) (hi j) A B) as [E1 E2]. rewrite E1, E2. cbn [lo hi].
  split; [lia|]. unfold intersects_i, intersect_i. split.
  - intros H. assert (K : (Z.max (lo i) (lo j) <=? Z.min (hi i) (hi j)) = true) by lia. rewrite K. cbn [snd]. f_equal; lia.
  - intros H q. unfold in_ivl; cbn [lo hi].
    assert (C : hi i < lo j \/ hi j < lo i) by lia. destruct C as [C|C].
    + replace (Z.min (Z.max (lo i) (lo j)) (Z.min (hi i) (hi j))) with (hi i) by lia.
      replace (Z.max (Z.max (lo i) (lo j)) (Z.min (hi i) (hi j))) with (lo j) by lia.
      zq. split.
      * intros [D E]. left. intros p r [F G] [P R]. split; lra.
      * intros [D|D]; specialize (D (inject_Z (hi i)) (inject_Z (lo j))); lra.
    + replace (Z.min (Z.max (lo i) (lo j)) (Z.min (hi i) (hi j))) with (hi j) by lia.
      replace (Z.max (Z.max (lo i) (lo j)) (Z.min (hi i) (hi j))) with (lo i) by lia.
      zq. split.
      * intros [D E]. right. intros p r [F G] [P R]. split; lra.
      * intros [D|D]; specialize (D (inject_Z (lo i)) (inject_Z (hi j))); lra.
Qed.

Lemma chk_ok z : is_int z -> chk z = Ok z.
Proof. unfold chk, is_int. intros. replace ((INT_MIN <=? z) && (z <=? INT_MAX)) with true by lia. reflexivity. Qed.
Lemma chk_inv z w : chk z = Ok w -> w = z /\ is_int z.
Proof. unfold chk, is_int. destruct ((INT_MIN <=? z) && (z <=? INT_MAX)) eqn:E; intros H; [injection H as <-|discriminate]. lia. Qed.
Lemma chk64_ok z : - 2 ^ 63 <= z < 2 ^ 63 -> chk64 z = Ok z.
Proof. unfold chk64. intros. replace ((- 2 ^ 63 <=? z) && (z <? 2 ^ 63)) with true by lia. reflexivity. Qed.
Lemma chk64_inv z w : chk64 z = Ok w -> w = z /\ - 2 ^ 63 <= z < 2 ^ 63.
Proof. unfold chk64. destruct ((- 2 ^ 63 <=? z) && (z <? 2 ^ 63)) eqn:E; intros H; [injection H as <-|discriminate]. lia. Qed.
Lemma obind_inv {A B : Type} (o : outcome A) (f : A -> outcome B) b : obind o f = Ok b -> exists a, o = Ok a /\ f a = Ok b.
Proof. destruct o; cbn [obind]; intros H; try discriminate. exists a. auto. Qed.
Lemma obind_overflow {A B : Type} (o : outcome A) (f : A -> outcome B) : obind o f = Overflow -> o = Overflow \/ exists a, o = Ok a /\ f a = Overflow.
Proof. destruct o; cbn [obind]; intros H; try discriminate; [right; exists a; auto|left; reflexivity]. Qed.
Lemma wrap32_id z : is_int z -> wrap32 z = z.
Proof. unfold wrap32, is_int, INT_MIN, INT_MAX. intros. rewrite Z.mod_small; lia. Qed.
Lemma wrap32_int z : is_int (wrap32 z).
Proof. unfold wrap32, is_int, INT_MIN, INT_MAX. pose proof (Z.mod_pos_bound (z + 2 ^ 31) (2 ^ 32)). lia. Qed.

(* centre and half *)
Lemma quot2_bounds s : 2 * Z.quot s 2 = s \/ (2 * Z.quot s 2 = s - 1 /\ 0 < s) \/ (2 * Z.quot s 2 = s + 1 /\ s < 0).
Proof.
  pose proof (Z.quot_rem' s 2) as E. pose proof (Z.rem_bound_abs s 2). 
  destruct (Z.leb_spec 0 s).
  - pose proof (Z.rem_nonneg s 2 ltac:(lia) H0). lia.
  - pose proof (Z.rem_nonpos s 2 ltac:(lia) ltac:(lia)). lia.
Qed.
Lemma center_spec i c : ivl_center i = Ok c -> 2 * c = lo i + hi i \/ (2 * c = lo i + hi i - 1 /\ 0 < lo i + hi i) \/ (2 * c = lo i + hi i + 1 /\ lo i + hi i < 0).
Proof.
  unfold ivl_center. intros H. apply obind_inv in H as [s [H1 H2]]. apply chk_inv in H1 as [-> _]. injection H2 as <-.
  pose proof (quot2_bounds (hi i + lo i)). lia.
Qed.
Lemma center_defined i : (exists c, ivl_center i = Ok c) <-> is_int (lo i + hi i).
Proof.
  unfold ivl_center. split.
  - intros [c H]. apply obind_inv in H as [s [H1 _]]. apply chk_inv in H1 as [_ H]. replace (lo i + hi i) with (hi i + lo i) by lia. exact H.
  - intros H. eexists. rewrite chk_ok by (replace (hi i + lo i) with (lo i + hi i) by lia; exact H). reflexivity.
Qed.
Lemma center_refuted : exists i, ivl_ok i /\ ivl_int i /\ ivl_center i = Overflow.
Proof. exists (mk_ivl 1 INT_MAX). unfold ivl_ok, ivl_int, is_int; cbn [lo hi]. vm_compute. repeat split; discriminate. Qed.
Lemma delta_spec i : ivl_int i -> ivl_delta i = Ok (hi i - lo i).
Proof. unfold ivl_int, is_int, INT_MIN, INT_MAX, ivl_delta. intros. apply chk64_ok. lia. Qed.

Lemma get_half_spec i high h : ivl_ok i -> ivl_get_half i high = Ok h ->
  ivl_ok h /\ exists c, ivl_center i = Ok c /\ lo i <= c <= hi i /\ h = if high then mk_ivl c (hi i) else mk_ivl (lo i) c.
Proof.
  unfold ivl_get_half, ivl_center, ivl_ok. intros A H. apply obind_inv in H as [s [H1 H2]].
  pose proof H1 as H1'. apply chk_inv in H1' as [-> Hi]. injection H2 as <-.
  pose proof (quot2_bounds (lo i + hi i)) as Q.
  replace (hi i + lo i) with (lo i + hi i) by lia. rewrite H1. cbn [obind]. unfold ivl_make.
  assert (B : lo i <= Z.quot (lo i + hi i) 2 <= hi i) by lia.
  destruct high.
  - destruct (Z.quot (lo i + hi i) 2 >? hi i) eqn:E; [lia|]. cbn [lo hi]. split; [lia|]. eexists; split; [reflexivity|]. split; [exact B|reflexivity].
  - destruct (lo i >? Z.quot (lo i + hi i) 2) eqn:E; [lia|]. cbn [lo hi]. split; [lia|]. eexists; split; [reflexivity|]. split; [exact B|reflexivity].
Qed.

Lemma make_ok a b : ivl_ok (ivl_make a b) /\ (forall q, in_ivl true (ivl_make a b) q <-> exists t, (0 <= t <= 1)%Q /\ (q == inject_Z a + t * (inject_Z b - inject_Z a))%Q).
Proof.
  unfold ivl_make, ivl_ok. destruct (a >? b) eqn:E; cbn [lo hi]; (split; [lia|]); unfold in_ivl; cbn [lo hi]; intros q.
  - assert (L : b < a) by lia. rewrite Zlt_Qlt in L. split.
    + intros [A B]. exists ((inject_Z a - q) / (inject_Z a - inject_Z b))%Q. split.
      * split; [apply Qle_shift_div_l; lra|apply Qle_shift_div_r; lra].
      * field. lra.
    + intros [t [[T1 T2] ->]]. split; nra.
  - assert (L : a <= b) by lia. split.
    + intros [A B]. destruct (Z.eq_dec a b) as [->|N].
      * exists 0%Q. split; lra.
      * assert (L' : a < b) by lia. rewrite Zlt_Qlt in L'.
        exists ((q - inject_Z a) / (inject_Z b - inject_Z a))%Q. split.
        -- split; [apply Qle_shift_div_l; lra|apply Qle_shift_div_r; lra].
        -- field. lra.
    + rewrite Zle_Qle in L. intros [t [[T1 T2] ->]]. split; nra.
Qed.

(* ---------- distances ---------- *)
Lemma dist_v_eq i v : ivl_ok i -> ivl_int i -> is_int v -> ivl_dist_v i v = Ok (Z.max 0 (Z.max (lo i - v) (v - hi i))).
Proof.
  unfold ivl_ok, ivl_int, is_int, INT_MIN, INT_MAX, ivl_dist_v. intros A [B C] D.
  rewrite chk64_ok by lia. cbn [obind]. rewrite chk64_ok by lia. cbn [obind].
  destruct (lo i - v >? 0) eqn:E1; destruct (v - hi i >? 0) eqn:E2; cbn [b2z Z.shiftl Pos.iter Z.mul Pos.mul Z.add Pos.add pick3 Z.eqb Pos.eqb]; try (f_equal; lia).
Qed.
Lemma dist_eq i j : ivl_ok i -> ivl_ok j -> ivl_int i -> ivl_int j -> ivl_dist i j = Ok (Z.max 0 (Z.max (lo i - hi j) (lo j - hi i))).
Proof.
  unfold ivl_ok, ivl_int, is_int, INT_MIN, INT_MAX, ivl_dist. intros A A' [B C] [D E].
  rewrite chk64_ok by lia. cbn [obind]. rewrite chk64_ok by lia. cbn [obind].
  destruct (lo i - hi j >? 0) eqn:E1; destruct (lo j - hi i >? 0) eqn:E2; cbn [b2z Z.shiftl Pos.iter Z.mul Pos.mul Z.add Pos.add pick3 Z.eqb Pos.eqb]; try (f_equal; lia).
Qed.
Lemma Qabs_ge_l x : (x <= Qabs x)%Q.
Proof. apply Qle_Qabs. Qed.
Lemma Qabs_ge_r x : (- x <= Qabs x)%Q.
Proof. rewrite <- Qabs_opp. apply Qle_Qabs. Qed.
Lemma least_dist_ivl i j : ivl_ok i -> ivl_ok j ->
  least_dist (in_ivl true i) (in_ivl true j) (inject_Z (Z.max 0 (Z.max (lo i - hi j) (lo j - hi i)))).
Proof.
  unfold ivl_ok, least_dist, in_ivl. intros A B. split.
  - intros p q [C D] [E F]. pose proof (Qabs_nonneg (p - q)) as N. pose proof (Qabs_ge_l (p - q)). pose proof (Qabs_ge_r (p - q)).
    destruct (Z.max_spec 0 (Z.max (lo i - hi j) (lo j - hi i))) as [[G ->]|[G ->]]; [|exact N].
    destruct (Z.max_spec (lo i - hi j) (lo j - hi i)) as [[K ->]|[K ->]]; unfold Z.sub; rewrite inject_Z_plus, inject_Z_opp; lra.
  - destruct (Z.leb_spec (lo i - hi j) 0) as [G|G].
    + destruct (Z.leb_spec (lo j - hi i) 0) as [K|K].
      * exists (inject_Z (Z.max (lo i) (lo j))), (inject_Z (Z.max (lo i) (lo j))).
        rewrite !Zle_Q. split; [lia|]. split; [lia|]. replace (Z.max 0 _) with 0 by lia.
        setoid_replace (inject_Z (Z.max (lo i) (lo j)) - inject_Z (Z.max (lo i) (lo j)))%Q with 0%Q by lra. reflexivity.
      * exists (inject_Z (hi i)), (inject_Z (lo j)). rewrite !Zle_Q. split; [lia|]. split; [lia|].
        replace (Z.max 0 _) with (lo j - hi i) by lia. unfold Z.sub. rewrite inject_Z_plus, inject_Z_opp.
        assert (L : hi i <= lo j) by lia. rewrite Zle_Qle in L. rewrite Qabs_neg by lra. lra.
    + exists (inject_Z (lo i)), (inject_Z (hi j)). rewrite !Zle_Q. split; [lia|]. split; [lia|].
      replace (Z.max 0 _) with (lo i - hi j) by lia. unfold Z.sub. rewrite inject_Z_plus, inject_Z_opp.
      assert (L : hi j <= lo i) by lia. rewrite Zle_Qle in L. rewrite Qabs_pos by lra. lra.
Qed.
Lemma dist_spec i j : ivl_ok i -> ivl_ok j -> ivl_int i -> ivl_int j ->
  exists d, ivl_dist i j = Ok d /\ least_dist (in_ivl true i) (in_ivl true j) (inject_Z d).
Proof. intros. eexists. split; [apply dist_eq; assumption|]. apply least_dist_ivl; assumption. Qed.
Lemma dist_v_spec i v : ivl_ok i -> ivl_int i -> is_int v ->
  exists d, ivl_dist_v i v = Ok d /\ least_dist (in_ivl true i) (fun q => (q == inject_Z v)%Q) (inject_Z d).
Proof.
  intros A B C. eexists. split; [apply dist_v_eq; assumption|].
  pose proof (least_dist_ivl i (mk_ivl v v) A (Z.le_refl v)) as [L1 [p [q [L2 [L3 L4]]]]]. cbn [lo hi] in *. split.
  - intros p' q' P Q. apply L1; [exact P|]. unfold in_ivl; cbn [lo hi]. lra.
  - exists p, q. split; [exact L2|]. split; [|exact L4]. unfold in_ivl in L3; cbn [lo hi] in L3. lra.
Qed.
(* with low > high the array is read out of bounds *)
Lemma dist_v_invalid : ivl_dist_v (mk_ivl 5 1) 3 = Undefined.
Proof. reflexivity. Qed.

(* ---------- arithmetic ---------- *)
(* the result of an operation on two ends, with int arithmetic *)
Lemma ends_inv l h i : obind (chk l) (fun l' => obind (chk h) (fun h' => Ok (mk_ivl l' h'))) = Ok i ->
  i = mk_ivl l h /\ is_int l /\ is_int h.
Proof.
  intros H. apply obind_inv in H as [l' [H1 H]]. apply obind_inv in H as [h' [H2 H]]. injection H as <-.
  apply chk_inv in H1 as [-> ?]. apply chk_inv in H2 as [-> ?]. auto.
Qed.
Lemma ends_ok l h : is_int l -> is_int h -> obind (chk l) (fun l' => obind (chk h) (fun h' => Ok (mk_ivl l' h'))) = Ok (mk_ivl l h).
Proof. intros. rewrite chk_ok by assumption. cbn [obind]. rewrite chk_ok by assumption. reflexivity. Qed.
Lemma ends_no_undef l h : obind (chk l) (fun l' => obind (chk h) (fun h' => Ok (mk_ivl l' h'))) <> Undefined.
Proof. unfold chk. destruct (_ && _); cbn [obind]; [destruct (_ && _); cbn [obind]|]; discriminate. Qed.

Lemma convolve_v_spec i v k : ivl_convolve_v i v = Ok k ->
  forall touch q, in_ivl touch k q <-> in_ivl touch i (q - inject_Z v).
Proof.
  intros H. apply ends_inv in H as [-> _]. intros touch q. unfold in_ivl; cbn [lo hi]. rewrite !inject_Z_plus.
  destruct touch; split; intros; lra.
Qed.
Lemma deconvolve_v_spec i v k : ivl_deconvolve_v i v = Ok k ->
  forall touch q, in_ivl touch k q <-> in_ivl touch i (q + inject_Z v).
Proof.
  intros H. apply ends_inv in H as [-> _]. intros touch q. unfold in_ivl; cbn [lo hi]. unfold Z.sub. rewrite !inject_Z_plus, !inject_Z_opp.
  destruct touch; split; intros; lra.
Qed.
Lemma convolve_v_roundtrip i v k : ivl_int i -> ivl_convolve_v i v = Ok k -> ivl_deconvolve_v k v = Ok i.
Proof.
  intros [A B] H. apply ends_inv in H as [-> _]. unfold ivl_deconvolve_v; cbn [lo hi]. replace (lo i + v - v) with (lo i) by lia.
  replace (hi i + v - v) with (hi i) by lia. rewrite ends_ok by assumption. destruct i; reflexivity.
Qed.
Lemma deconvolve_v_roundtrip i v k : ivl_int i -> ivl_deconvolve_v i v = Ok k -> ivl_convolve_v k v = Ok i.
Proof.
  intros [A B] H. apply ends_inv in H as [-> _]. unfold ivl_convolve_v; cbn [lo hi]. replace (lo i - v + v) with (lo i) by lia.
  replace (hi i - v + v) with (hi i) by lia. rewrite ends_ok by assumption. destruct i; reflexivity.
Qed.
(* Minkowski sum and erosion *)
Lemma convolve_spec i j k : ivl_ok i -> ivl_ok j -> ivl_convolve i j = Ok k ->
  ivl_ok k /\ forall q, in_ivl true k q <-> exists a b, in_ivl true i a /\ in_ivl true j b /\ (q == a + b)%Q.
Proof.
  unfold ivl_ok. intros A B H. apply ends_inv in H as [-> _]. cbn [lo hi]. split; [lia|]. intros q. unfold in_ivl; cbn [lo hi].
  rewrite !inject_Z_plus. rewrite Zle_Qle in A, B. split.
  - intros [C D].
    destruct (Qlt_le_dec (q - inject_Z (lo j)) (inject_Z (hi i))) as [E|E].
    + exists (q - inject_Z (lo j))%Q, (inject_Z (lo j)). repeat split; lra.
    + exists (inject_Z (hi i)), (q - inject_Z (hi i))%Q. repeat split; lra.
  - intros [a [b [[C D] [[E F] ->]]]]. split; lra.
Qed.
Lemma deconvolve_spec i j k : ivl_ok j -> ivl_deconvolve i j = Ok k ->
  forall q, in_ivl true k q <-> forall b, in_ivl true j b -> in_ivl true i (q + b).
Proof.
  unfold ivl_ok. intros B H. apply ends_inv in H as [-> _]. intros q. unfold in_ivl; cbn [lo hi]. unfold Z.sub.
  rewrite !inject_Z_plus, !inject_Z_opp. split.
  - intros [C D] b [E F]. split; lra.
  - intros K. pose proof (K (inject_Z (lo j))) as K1. pose proof (K (inject_Z (hi j))) as K2.
    rewrite !Zle_Q in K1, K2. destruct K1 as [K1 _]; [lia|]. destruct K2 as [_ K2]; [lia|]. split; lra.
Qed.
Lemma convolve_roundtrip i j k : ivl_int i -> ivl_convolve i j = Ok k -> ivl_deconvolve k j = Ok i.
Proof.
  intros [A B] H. apply ends_inv in H as [-> _]. unfold ivl_deconvolve; cbn [lo hi]. replace (lo i + lo j - lo j) with (lo i) by lia.
  replace (hi i + hi j - hi j) with (hi i) by lia. rewrite ends_ok by assumption. destruct i; reflexivity.
Qed.
Lemma reflected_convolve_spec i j k : ivl_ok i -> ivl_ok j -> ivl_reflected_convolve i j = Ok k ->
  ivl_ok k /\ forall q, in_ivl true k q <-> exists a b, in_ivl true i a /\ in_ivl true j b /\ (q == a - b)%Q.
Proof.
  unfold ivl_ok. intros A B H. apply ends_inv in H as [-> _]. cbn [lo hi]. split; [lia|]. intros q. unfold in_ivl; cbn [lo hi].
  unfold Z.sub. rewrite !inject_Z_plus, !inject_Z_opp. rewrite Zle_Qle in A, B. split.
  - intros [C D].
    destruct (Qlt_le_dec (q + inject_Z (lo j)) (inject_Z (lo i))) as [E|E].
    + exists (inject_Z (lo i)), (inject_Z (lo i) - q)%Q. repeat split; lra.
    + exists (q + inject_Z (lo j))%Q, (inject_Z (lo j)). repeat split; lra.
  - intros [a [b [[C D] [[E F] ->]]]]. split; lra.
Qed.
Lemma reflected_deconvolve_spec i j k : ivl_ok j -> ivl_reflected_deconvolve i j = Ok k ->
  forall q, in_ivl true k q <-> forall b, in_ivl true j b -> in_ivl true i (q - b).
Proof.
  unfold ivl_ok. intros B H. apply ends_inv in H as [-> _]. intros q. unfold in_ivl; cbn [lo hi].
  rewrite !inject_Z_plus. split.
  - intros [C D] b [E F]. split; lra.
  - intros K. pose proof (K (inject_Z (lo j))) as K1. pose proof (K (inject_Z (hi j))) as K2.
    rewrite !Zle_Q in K1, K2. destruct K1 as [_ K1]; [lia|]. destruct K2 as [K2 _]; [lia|]. split; lra.
Qed.
Lemma reflected_roundtrip i j k : ivl_int i -> ivl_reflected_convolve i j = Ok k -> ivl_reflected_deconvolve k j = Ok i.
Proof.
  intros [A B] H. apply ends_inv in H as [-> _]. unfold ivl_reflected_deconvolve; cbn [lo hi]. replace (lo i - hi j + hi j) with (lo i) by lia.
  replace (hi i - lo j + lo j) with (hi i) by lia. rewrite ends_ok by assumption. destruct i; reflexivity.
Qed.

Lemma move_spec i d k : ivl_int i -> ivl_move i d = Ok k -> is_int (lo i + d) -> is_int (hi i + d) -> k = mk_ivl (lo i + d) (hi i + d).
Proof.
  unfold ivl_move. intros A H B C. apply obind_inv in H as [l [H1 H]]. apply obind_inv in H as [h [H2 H]].
  apply chk64_inv in H1 as [-> _]. apply chk64_inv in H2 as [-> _]. injection H as <-. rewrite !wrap32_id by assumption. reflexivity.
Qed.
Lemma move_defined i d : ivl_int i -> - 2 ^ 62 <= d <= 2 ^ 62 -> exists k, ivl_move i d = Ok k.
Proof.
  unfold ivl_move, ivl_int, is_int, INT_MIN, INT_MAX. intros [A B] C. rewrite chk64_ok by lia. cbn [obind]. rewrite chk64_ok by lia. eexists; reflexivity.
Qed.
(* out of range the interval is silently wrapped and its ends may change order *)
Lemma move_wraps : exists i d k, ivl_ok i /\ ivl_int i /\ ivl_move i d = Ok k /\ ~ ivl_ok k.
Proof. exists (mk_ivl 0 10), (INT_MAX - 5). eexists. unfold ivl_ok, ivl_int, is_int. split; [vm_compute; congruence|]. split; [vm_compute; repeat split; discriminate|].
  split; [vm_compute; reflexivity|]. vm_compute. congruence. Qed.

Lemma flip_inv i a k : ivl_flip i a = Ok k -> exists m, m = 2 * a /\ is_int m /\ k = mk_ivl (m - hi i) (m - lo i).
Proof.
  intros H. remember (2 * a) as m eqn:Em. cbv beta delta [ivl_flip] in H. rewrite <- Em in H.
  apply obind_inv in H as [x [H1 H]]. apply obind_inv in H as [l [H2 H]].
  apply obind_inv in H as [y [H3 H]]. apply obind_inv in H as [h [H4 H]].
  apply chk_inv in H1 as [-> I]. apply chk_inv in H2 as [-> _]. apply chk_inv in H3 as [-> _]. apply chk_inv in H4 as [-> _].
  exists m. split; [reflexivity|]. split; [exact I|]. injection H as <-. reflexivity.
Qed.
Lemma flip_spec i a k : ivl_flip i a = Ok k -> k = mk_ivl (2 * a - hi i) (2 * a - lo i) /\
  (ivl_ok i <-> ivl_ok k) /\ forall touch q, in_ivl touch k q <-> in_ivl touch i (2 * inject_Z a - q).
Proof.
  intros H. apply flip_inv in H as [m [Em [_ ->]]].
  assert (M : (inject_Z m == 2 * inject_Z a)%Q) by (rewrite Em, inject_Z_mult; reflexivity).
  split; [rewrite Em; reflexivity|]. unfold ivl_ok, in_ivl; cbn [lo hi]. split; [lia|]. intros touch q.
  destruct touch; rewrite !injZ_sub; split; intros; lra.
Qed.
Lemma flip_involutive i a k : ivl_int i -> ivl_flip i a = Ok k -> ivl_flip k a = Ok i.
Proof.
  intros [A B] H. apply flip_inv in H as [m [Em [I ->]]].
  cbv beta delta [ivl_flip]. rewrite <- Em. rewrite chk_ok by exact I. cbn [obind lo hi].
  replace (m - (m - lo i)) with (lo i) by lia. rewrite chk_ok by exact A. cbn [obind].
  replace (m - (m - hi i)) with (hi i) by lia. rewrite chk_ok by exact B. cbn [obind]. destruct i; reflexivity.
Qed.

(* dilation and erosion by a ball *)
Lemma bloat_spec i b k : ivl_ok i -> 0 <= b -> ivl_bloat i b = Ok k ->
  ivl_ok k /\ forall q, in_ivl true k q <-> exists p, in_ivl true i p /\ (Qabs (q - p) <= inject_Z b)%Q.
Proof.
  unfold ivl_ok. intros A B H. apply ends_inv in H as [-> _]. cbn [lo hi]. split; [lia|]. intros q. unfold in_ivl; cbn [lo hi].
  unfold Z.sub. rewrite !inject_Z_plus, !inject_Z_opp. rewrite Zle_Qle in A. change 0 with (Z.zero) in B. unfold Z.zero in B. rewrite Zle_Qle in B.
  change (inject_Z 0) with 0%Q in B. split.
  - intros [C D]. destruct (Qlt_le_dec q (inject_Z (lo i))) as [E|E].
    + exists (inject_Z (lo i)). split; [split; lra|]. apply Qabs_Qle_condition. split; lra.
    + destruct (Qlt_le_dec (inject_Z (hi i)) q) as [F|F].
      * exists (inject_Z (hi i)). split; [split; lra|]. apply Qabs_Qle_condition. split; lra.
      * exists q. split; [split; lra|]. apply Qabs_Qle_condition. split; lra.
  - intros [p [[C D] E]]. apply Qabs_Qle_condition in E. split; lra.
Qed.
Lemma shrink_spec i b k : 0 <= b -> ivl_shrink i b = Ok k ->
  (forall q, in_ivl true k q <-> forall p, (Qabs (p - q) <= inject_Z b)%Q -> in_ivl true i p) /\
  (ivl_ok k <-> lo i + b <= hi i - b).
Proof.
  intros B H. unfold ivl_shrink in H. apply obind_inv in H as [m [H1 H]]. apply chk_inv in H1 as [-> _].
  apply ends_inv in H as [-> _]. split; [|unfold ivl_ok; cbn [lo hi]; lia]. intros q. unfold in_ivl; cbn [lo hi].
  unfold Z.sub. rewrite Z.opp_involutive, !inject_Z_plus, !inject_Z_opp. rewrite Zle_Qle in B. change (inject_Z 0) with 0%Q in B. split.
  - intros [C D] p E. apply Qabs_Qle_condition in E. split; lra.
  - intros K. split.
    + destruct (K (q - inject_Z b)%Q); [apply Qabs_Qle_condition; split; lra|]. lra.
    + destruct (K (q + inject_Z b)%Q); [apply Qabs_Qle_condition; split; lra|]. lra.
Qed.
Lemma bloat_shrink_roundtrip i b k : ivl_int i -> is_int (- b) -> ivl_bloat i b = Ok k -> ivl_shrink k b = Ok i.
Proof.
  intros [A B] N H. apply ends_inv in H as [-> _]. unfold ivl_shrink. rewrite chk_ok by exact N. cbn [obind]. unfold ivl_bloat; cbn [lo hi].
  replace (lo i - b - - b) with (lo i) by lia. replace (hi i + b + - b) with (hi i) by lia. rewrite ends_ok by assumption. destruct i; reflexivity.
Qed.
Lemma bloat_dir_spec i high b k : ivl_bloat_dir i high b = Ok k ->
  k = if high then mk_ivl (lo i) (hi i + b) else mk_ivl (lo i - b) (hi i).
Proof.
  unfold ivl_bloat_dir. intros H. apply obind_inv in H as [s [H1 H]]. apply obind_inv in H as [v [H2 H]]. injection H as <-.
  apply chk_inv in H1 as [-> _]. apply chk_inv in H2 as [-> _]. destruct high; unfold ivl_set, ivl_get; f_equal; lia.
Qed.
Lemma shrink_dir_spec i high b k : ivl_shrink_dir i high b = Ok k ->
  k = if high then mk_ivl (lo i) (hi i - b) else mk_ivl (lo i + b) (hi i).
Proof.
  unfold ivl_shrink_dir. intros H. apply obind_inv in H as [m [H1 H]]. apply chk_inv in H1 as [-> _].
  apply bloat_dir_spec in H as ->. destruct high; f_equal; lia.
Qed.

Lemma scale_up_spec i f k : ivl_scale_up i f = Ok k -> 0 < f ->
  (ivl_ok i <-> ivl_ok k) /\ forall touch q, in_ivl touch k q <-> in_ivl touch i (q / inject_Z f).
Proof.
  unfold ivl_scale_up. intros H F. apply obind_inv in H as [h [H1 H]]. apply obind_inv in H as [l [H2 H]]. injection H as <-.
  apply chk_inv in H1 as [-> _]. apply chk_inv in H2 as [-> _]. unfold ivl_ok, in_ivl; cbn [lo hi].
  split; [split; intros; nia|]. intros touch q. rewrite !inject_Z_mult. rewrite Zlt_Qlt in F. change (inject_Z 0) with 0%Q in F.
  destruct touch; split; intros [A B]; split.
  - apply Qle_shift_div_l; assumption.
  - apply Qle_shift_div_r; assumption.
  - apply (Qmult_le_compat_r _ _ (inject_Z f)) in A; [|lra]. setoid_replace (q / inject_Z f * inject_Z f)%Q with q in A by (field; lra). exact A.
  - apply (Qmult_le_compat_r _ _ (inject_Z f)) in B; [|lra]. setoid_replace (q / inject_Z f * inject_Z f)%Q with q in B by (field; lra). exact B.
  - apply Qlt_shift_div_l; assumption.
  - apply Qlt_shift_div_r; assumption.
  - apply (Qmult_lt_compat_r _ _ (inject_Z f)) in A; [|lra]. setoid_replace (q / inject_Z f * inject_Z f)%Q with q in A by (field; lra). exact A.
  - apply (Qmult_lt_compat_r _ _ (inject_Z f)) in B; [|lra]. setoid_replace (q / inject_Z f * inject_Z f)%Q with q in B by (field; lra). exact B.
Qed.
Lemma scale_down_spec i f : ivl_ok i -> ivl_int i -> 0 < f -> is_int f ->
  exists k, ivl_scale_down i f = Ok k /\ ivl_ok k /\ lo k = Z.quot (lo i) f /\ hi k = Z.quot (hi i) f.
Proof.
  unfold ivl_scale_down, div_int, ivl_ok, ivl_int, is_int. intros A [[B1 B2] [C1 C2]] F _.
  replace (f =? 0) with false by lia.
  assert (K : forall z, INT_MIN <= z <= INT_MAX -> chk (Z.quot z f) = Ok (Z.quot z f)).
  { intros z Hz. apply chk_ok. unfold is_int, INT_MIN, INT_MAX in *.
    assert (Q1 : -2147483648 <= Z.quot z f). { apply Z.quot_le_lower_bound; nia. }
    assert (Q2 : Z.quot z f <= 2147483647). { apply Z.quot_le_upper_bound; nia. } lia. }
  rewrite !K by lia. cbn [obind]. eexists. split; [reflexivity|]. cbn [lo hi].
  split; [apply Z.quot_le_mono; lia|]. split; reflexivity.
Qed.
Lemma scale_roundtrip i f k : ivl_int i -> 0 < f -> ivl_scale_up i f = Ok k -> ivl_scale_down k f = Ok i.
Proof.
  unfold ivl_scale_up. intros [A B] F H. apply obind_inv in H as [h [H1 H]]. apply obind_inv in H as [l [H2 H]]. injection H as <-.
  apply chk_inv in H1 as [-> _]. apply chk_inv in H2 as [-> _]. unfold ivl_scale_down, div_int; cbn [lo hi].
  replace (f =? 0) with false by lia. rewrite !Z.quot_mul by lia. rewrite chk_ok by exact B. cbn [obind]. rewrite chk_ok by exact A. cbn [obind]. destruct i; reflexivity.
Qed.

(* the documentation of set(): "If low would be greater than high after this
   change then both are set to the input coordinate value" is not what the code
   does *)
Lemma set_invariant_refuted : exists i high v, ivl_ok i /\ ~ ivl_ok (ivl_set i high v).
Proof. exists (mk_ivl 0 5), false, 7. unfold ivl_ok. vm_compute. split; congruence. Qed.
Lemma shrink_invariant_refuted : exists i b k, ivl_ok i /\ 0 <= b /\ ivl_shrink i b = Ok k /\ ~ ivl_ok k.
Proof. exists (mk_ivl 0 5), 3. eexists. unfold ivl_ok. split; [vm_compute; congruence|]. split; [lia|]. split; [vm_compute; reflexivity|]. vm_compute. congruence. Qed.

(* the order of interval_data *)
Lemma ivl_less_irrefl i : ivl_less i i = false.
Proof. unfold ivl_less. destruct (lo i =? lo i) eqn:E; cbn [negb]; lia. Qed.
Lemma ivl_less_trans i j k : ivl_less i j = true -> ivl_less j k = true -> ivl_less i k = true.
Proof. unfold ivl_less. destruct (lo i =? lo j) eqn:E1; destruct (lo j =? lo k) eqn:E2; destruct (lo i =? lo k) eqn:E3; cbn [negb]; lia. Qed.
Lemma ivl_less_total i j : ivl_less i j = true \/ i = j \/ ivl_less j i = true.
Proof.
  destruct i as [a b], j as [c d]. unfold ivl_less; cbn [lo hi].
  destruct (Z.lt_trichotomy a c) as [H|[->|H]].
  - left. replace (a =? c) with false by lia. cbn [negb]. lia.
  - rewrite Z.eqb_refl. cbn [negb]. destruct (Z.lt_trichotomy b d) as [H|[->|H]]; [left; lia|right; left; reflexivity|right; right; lia].
  - right. right. replace (c =? a) with false by lia. cbn [negb]. lia.
Qed.

(* ---------- when the int arithmetic is defined ---------- *)
Lemma ends_defined l h : (exists k, obind (chk l) (fun l' => obind (chk h) (fun h' => Ok (mk_ivl l' h'))) = Ok k) <-> is_int l /\ is_int h.
Proof. split; [intros [k H]; apply ends_inv in H; tauto|intros []; eexists; apply ends_ok; assumption]. Qed.
Lemma shrink_defined i b : (exists k, ivl_shrink i b = Ok k) <-> is_int (- b) /\ is_int (lo i + b) /\ is_int (hi i - b).
Proof.
  unfold ivl_shrink. split.
  - intros [k H]. apply obind_inv in H as [m [H1 H]]. apply chk_inv in H1 as [-> I]. apply ends_inv in H as [_ [J K]].
    replace (lo i - - b) with (lo i + b) in J by lia. replace (hi i + - b) with (hi i - b) in K by lia. auto.
  - intros [I [J K]]. rewrite chk_ok by exact I. cbn [obind]. apply ends_defined.
    replace (lo i - - b) with (lo i + b) by lia. replace (hi i + - b) with (hi i - b) by lia. auto.
Qed.
Lemma flip_defined i a : (exists k, ivl_flip i a = Ok k) <-> is_int (2 * a) /\ is_int (2 * a - hi i) /\ is_int (2 * a - lo i).
Proof.
  remember (2 * a) as m eqn:Em. cbv beta delta [ivl_flip]. rewrite <- Em. split.
  - intros [k H]. apply obind_inv in H as [x [H1 H]]. apply obind_inv in H as [l [H2 H]].
    apply obind_inv in H as [y [H3 H]]. apply obind_inv in H as [h [H4 H]].
    apply chk_inv in H1 as [-> I]. apply chk_inv in H2 as [-> I2]. apply chk_inv in H3 as [-> _]. apply chk_inv in H4 as [-> I4]. auto.
  - intros [I [J K]]. rewrite (chk_ok m) by exact I. cbn [obind]. rewrite chk_ok by exact J. cbn [obind]. rewrite chk_ok by exact K. eexists; reflexivity.
Qed.
Lemma scale_up_defined i f : (exists k, ivl_scale_up i f = Ok k) <-> is_int (hi i * f) /\ is_int (lo i * f).
Proof.
  unfold ivl_scale_up. split.
  - intros [k H]. apply obind_inv in H as [x [H1 H]]. apply obind_inv in H as [l [H2 H]]. apply chk_inv in H1 as [_ I]. apply chk_inv in H2 as [_ J]. auto.
  - intros [I J]. rewrite chk_ok by exact I. cbn [obind]. rewrite chk_ok by exact J. eexists; reflexivity.
Qed.
Lemma move_roundtrip i d k : ivl_int i -> - 2 ^ 62 <= d <= 2 ^ 62 -> ivl_move i d = Ok k -> is_int (lo i + d) -> is_int (hi i + d) -> ivl_move k (- d) = Ok i.
Proof.
  intros A D H B C. rewrite (move_spec i d k A H B C). unfold ivl_move; cbn [lo hi].
  replace (lo i + d + - d) with (lo i) by lia. replace (hi i + d + - d) with (hi i) by lia. destruct A as [A1 A2].
  rewrite chk64_ok by (unfold is_int, INT_MIN, INT_MAX in *; lia). cbn [obind].
  rewrite chk64_ok by (unfold is_int, INT_MIN, INT_MAX in *; lia). cbn [obind].
  rewrite !wrap32_id by assumption. destruct i; reflexivity.
Qed.
Lemma center_least i c : ivl_ok i -> ivl_center i = Ok c -> in_ivl true i (inject_Z c) /\ (Qabs (inject_Z c - (inject_Z (lo i) + inject_Z (hi i)) / 2) <= 1 # 2)%Q.
Proof.
  unfold ivl_ok. intros A H. apply center_spec in H. split; [unfold in_ivl; rewrite !Zle_Q; lia|].
  rewrite <- inject_Z_plus.
  assert (E : (- (1 # 2) <= inject_Z c - inject_Z (lo i + hi i) / 2 /\ inject_Z c - inject_Z (lo i + hi i) / 2 <= 1 # 2)%Q).
  { assert (L1 : 2 * c <= (lo i + hi i) + 1) by lia. assert (L2 : lo i + hi i - 1 <= 2 * c) by lia.
    remember (lo i + hi i) as s. replace (2 * c) with (c + c) in L1, L2 by lia.
    rewrite Zle_Qle in L1, L2. rewrite injZ_sub in L2. rewrite !inject_Z_plus in L1. rewrite inject_Z_plus in L2.
    change (inject_Z 1) with 1%Q in *. setoid_replace (inject_Z s / 2)%Q with (inject_Z s * (1 # 2))%Q by (field; discriminate). split; lra. }
  apply Qabs_Qle_condition. exact E.
Qed.
