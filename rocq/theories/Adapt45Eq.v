(* The vertices of a set in order are determined by what they cover, up to vertices at which
   all counts cancel; and nothing is covered outside of the rectangle around the vertices. *)
From Coq Require Import Reals Lra Sorting.Sorted Permutation.
From Verif Require Import Base Units Scan90Spec Poly90Spec Poly90Model GeoSpec PolySpec Set90Spec ArbSpec ArbSums ArbOrder Ins45Spec Ins45Model Scan45Model Scan45Base Bool45Spec Bool45Model Adapt45Model.
From Coq Require Import Lra.
Local Open Scope Z_scope.

(* the counts of slope r at p *)
Definition count_at (p : point) (r : Z) (l : list v45) : Z := tot (fun v => if pt_eqb (v_pt v) p then slope_count v r else 0) l.
Definition left_on (X r b : Z) (l : list v45) : Z := tot (fun v => if (px (v_pt v) <=? X) && (py (v_pt v) =? r * px (v_pt v) + b) then slope_count v r else 0) l.
Lemma tot_sub {A} (f g : A -> Z) l : tot f l - tot g l = tot (fun a => f a - g a) l.
Proof. induction l as [|a l IH]; cbn [tot]; [reflexivity|]. rewrite <- IH. lia. Qed.
Lemma tot_same {A} (f g : A -> Z) l : (forall a, In a l -> f a = g a) -> tot f l = tot g l.
Proof. induction l as [|a l IH]; intros H; cbn [tot]; [reflexivity|]. rewrite (H a (or_introl eq_refl)), IH by (intros; apply H; right; assumption). reflexivity. Qed.
Lemma rltb_8 u w x y : x = (IZR u / 8)%R -> y = (IZR w / 8)%R -> rltb x y = (u <? w).
Proof. intros -> ->. apply ArbSums.bool_eq. rewrite rltb_iff, Z.ltb_lt. split; intros H; [apply lt_IZR; lra|apply IZR_lt in H; lra]. Qed.
Lemma rleb_4 a X : rleb (IZR a) (IZR X + / 4) = (a <=? X).
Proof. apply ArbSums.bool_eq. rewrite rleb_iff, Z.leb_le. split; intros H; [|apply IZR_le in H; lra]. apply Z.lt_succ_r, lt_IZR. rewrite succ_IZR. lra. Qed.
Lemma jump l X r b : -1 <= r <= 1 ->
  depth45 l (IZR X + / 4) (IZR (8 * (r * X + b) + 2 * r + 1) / 8) - depth45 l (IZR X + / 4) (IZR (8 * (r * X + b) + 2 * r - 1) / 8) = left_on X r b l.
Proof.
  intros Hr. unfold depth45, left_on. rewrite tot_sub. apply tot_same. intros v _. unfold v45_depth. rewrite rleb_4. destruct (Z.leb_spec (px (v_pt v)) X) as [L|L]; [|reflexivity]. cbn [andb]. destruct v as [[a c] d f u w]. cbn [v_pt v_down v_flat v_up px py] in *. unfold line_below. cbn [px py].
  assert (E1 : (IZR c + -1 * (IZR X + / 4 - IZR a))%R = (IZR (8 * (c - X + a) - 2) / 8)%R) by (rewrite minus_IZR, mult_IZR, plus_IZR, minus_IZR; field).
  assert (E2 : (IZR c + 0 * (IZR X + / 4 - IZR a))%R = (IZR (8 * c) / 8)%R) by (rewrite mult_IZR; field).
  assert (E3 : (IZR c + 1 * (IZR X + / 4 - IZR a))%R = (IZR (8 * (c + X - a) + 2) / 8)%R) by (rewrite plus_IZR, mult_IZR, minus_IZR, plus_IZR; field).
  rewrite !(rltb_8 _ _ _ _ E1 eq_refl), !(rltb_8 _ _ _ _ E2 eq_refl), !(rltb_8 _ _ _ _ E3 eq_refl). unfold slope_count. cbn [v_down v_flat v_up].
  assert (r = -1 \/ r = 0 \/ r = 1) as [-> | [-> | ->]] by lia; cbn [Z.eqb Pos.eqb]; repeat match goal with |- context [?p <? ?q] => destruct (Z.ltb_spec p q) | |- context [?p =? ?q] => destruct (Z.eqb_spec p q) end; lia.
Qed.
Lemma count_at_left p r l : count_at p r l = left_on (px p) r (py p - r * px p) l - left_on (px p - 1) r (py p - r * px p) l.
Proof.
  unfold count_at, left_on. rewrite tot_sub. apply tot_same. intros v _. unfold pt_eqb.
  destruct (Z.eqb_spec (px (v_pt v)) (px p)) as [E|E]; cbn [andb].
  - rewrite E. replace (px p <=? px p) with true by lia. replace (px p <=? px p - 1) with false by lia. cbn [andb]. replace (r * px p + (py p - r * px p)) with (py p) by lia. destruct (_ =? _); lia.
  - replace (px (v_pt v) <=? px p - 1) with (px (v_pt v) <=? px p) by lia. destruct (_ && _); lia.
Qed.
Lemma counts_of_depth a b : (forall x y, depth45 a x y = depth45 b x y) -> forall p r, -1 <= r <= 1 -> count_at p r a = count_at p r b.
Proof. intros H p r Hr. rewrite !count_at_left, <- !(jump _ _ r _ Hr), !H. reflexivity. Qed.

(* vertices in strict order *)
Lemma strict_not l p : Forall (fun w => pt_lt p (v_pt w)) l -> forall r, count_at p r l = 0.
Proof.
  intros F r. unfold count_at. induction F as [|w l H F IH]; [reflexivity|]. cbn [tot]. rewrite IH. unfold pt_lt in H. unfold pt_eqb. destruct (Z.eqb_spec (px (v_pt w)) (px p)), (Z.eqb_spec (py (v_pt w)) (py p)); cbn [andb]; lia.
Qed.
Lemma strict_count l v r : strictly_in_order l -> In v l -> count_at (v_pt v) r l = slope_count v r.
Proof.
  unfold strictly_in_order. induction 1 as [|w l S IH F]; [intros []|]. intros [-> | V].
  - unfold count_at. cbn [tot]. fold (count_at (v_pt v) r l). rewrite (strict_not l (v_pt v) F). unfold pt_eqb. rewrite !Z.eqb_refl. cbn [andb]. lia.
  - unfold count_at. cbn [tot]. fold (count_at (v_pt v) r l). rewrite (IH V). rewrite Forall_forall in F. specialize (F v V). unfold pt_lt in F. unfold pt_eqb. destruct (Z.eqb_spec (px (v_pt w)) (px (v_pt v))), (Z.eqb_spec (py (v_pt w)) (py (v_pt v))); cbn [andb]; lia.
Qed.
Lemma count_in l p r : count_at p r l <> 0 -> exists v, In v l /\ v_pt v = p.
Proof.
  unfold count_at. induction l as [|w l IH]; cbn [tot]; [lia|]. intros H. destruct (pt_eqb (v_pt w) p) eqn:E.
  - exists w. split; [left; reflexivity|]. unfold pt_eqb in E. destruct (v_pt w) as [a b], p as [c d]. cbn [px py] in E. f_equal; lia.
  - destruct IH as [v [V1 V2]]; [lia|]. exists v. split; [right; exact V1|exact V2].
Qed.
Definition nonzero (v : v45) : bool := negb (no_counts v).
Lemma same_counts_in a b v : strictly_in_order a -> strictly_in_order b -> Forall balanced a -> Forall balanced b -> (forall p r, -1 <= r <= 1 -> count_at p r a = count_at p r b) -> In v (filter nonzero a) -> In v (filter nonzero b).
Proof.
  intros Sa Sb Ba Bb H V. apply filter_In in V as [V N]. rewrite Forall_forall in Ba, Bb. pose proof (Ba v V) as Bv. unfold balanced in Bv.
  assert (K : exists r, -1 <= r <= 1 /\ slope_count v r <> 0).
  { unfold nonzero, no_counts in N. destruct (Z.eq_dec (v_down v) 0); [|exists (-1); unfold slope_count; cbn [Z.eqb Pos.eqb]; lia]. destruct (Z.eq_dec (v_flat v) 0); [|exists 0; unfold slope_count; cbn [Z.eqb Pos.eqb]; lia]. destruct (Z.eq_dec (v_up v) 0); [|exists 1; unfold slope_count; cbn [Z.eqb Pos.eqb]; lia]. lia. }
  destruct K as [r [Hr K]]. rewrite <- (strict_count a v r Sa V), (H _ _ Hr) in K. destruct (count_in _ _ _ K) as [w [W E]].
  assert (Q : forall r, -1 <= r <= 1 -> slope_count v r = slope_count w r) by (intros q Hq; rewrite <- (strict_count a v q Sa V), <- (strict_count b w q Sb W), E; apply H, Hq).
  pose proof (Q (-1) ltac:(lia)) as Q1. pose proof (Q 0 ltac:(lia)) as Q2. pose proof (Q 1 ltac:(lia)) as Q3. unfold slope_count in Q1, Q2, Q3. cbn [Z.eqb Pos.eqb] in Q1, Q2, Q3. pose proof (Bb w W) as Bw. unfold balanced in Bw.
  assert (v = w) as -> by (destruct v as [a1 a2 a3 a4 a5], w as [b1 b2 b3 b4 b5]; cbn [v_pt v_down v_flat v_up v_vert] in *; f_equal; congruence || lia). apply filter_In. split; assumption.
Qed.
Lemma strict_filter f l : strictly_in_order l -> strictly_in_order (filter f l).
Proof.
  unfold strictly_in_order. induction 1 as [|v l S IH F]; cbn [filter]; [constructor|]. destruct (f v); [|exact IH]. constructor; [exact IH|]. rewrite Forall_forall in *. intros w W. apply filter_In in W. apply F, W.
Qed.
Lemma pt_lt_anti v w : pt_lt (v_pt v) (v_pt w) -> pt_lt (v_pt w) (v_pt v) -> False.
Proof. unfold pt_lt. lia. Qed.
Lemma strict_same a : forall b, strictly_in_order a -> strictly_in_order b -> (forall v, In v a <-> In v b) -> a = b.
Proof.
  induction a as [|v a IH]; intros b Sa Sb H.
  - destruct b as [|w b]; [reflexivity|]. destruct (proj2 (H w) (or_introl eq_refl)).
  - destruct b as [|w b]; [destruct (proj1 (H v) (or_introl eq_refl))|]. inversion Sa as [|? ? Sa1 Fa]; subst. inversion Sb as [|? ? Sb1 Fb]; subst. rewrite Forall_forall in Fa, Fb.
    assert (v = w).
    { destruct (proj1 (H v) (or_introl eq_refl)) as [E|V]; [congruence|]. destruct (proj2 (H w) (or_introl eq_refl)) as [E|W]; [congruence|]. destruct (pt_lt_anti v w); [apply Fa, W|apply Fb, V]. }
    subst w. f_equal. apply IH; [exact Sa1|exact Sb1|]. intros u. split; intros U.
    + destruct (proj1 (H u) (or_intror U)) as [<-|K]; [|exact K]. destruct (pt_lt_anti v v); apply Fa, U.
    + destruct (proj2 (H u) (or_intror U)) as [<-|K]; [|exact K]. destruct (pt_lt_anti v v); apply Fb, U.
Qed.
Lemma determined a b : strictly_in_order a -> strictly_in_order b -> Forall balanced a -> Forall balanced b -> (forall x y, depth45 a x y = depth45 b x y) -> filter nonzero a = filter nonzero b.
Proof.
  intros Sa Sb Ba Bb H. pose proof (counts_of_depth a b H) as C. apply strict_same; [apply strict_filter, Sa|apply strict_filter, Sb|]. intros v. split; apply same_counts_in; try assumption. intros p r Hr. symmetry. apply C, Hr.
Qed.
Lemma data_eqb_iff a : forall b, data_eqb a b = true <-> a = b.
Proof.
  induction a as [|v a IH]; intros [|w b]; cbn [data_eqb]; split; try discriminate; try reflexivity.
  - rewrite andb_true_iff, IH. intros [E ->]. f_equal. unfold v45_eqb, pt_eqb in E. destruct v as [[v1 v2] v3 v4 v5 v6], w as [[w1 w2] w3 w4 w5 w6]. cbn [v_pt px py v_down v_flat v_up v_vert] in E. f_equal; [f_equal|..]; lia.
  - intros E. inversion E; subst. rewrite andb_true_iff, IH. split; [|reflexivity]. unfold v45_eqb, pt_eqb. rewrite !Z.eqb_refl. reflexivity.
Qed.

(* the rectangle around the vertices *)
Lemma tot_group {A} (k c : A -> Z) (g : Z -> Z) : forall n l, (length l <= n)%nat -> (forall b, g b = 0 \/ tot (fun v => if k v =? b then c v else 0) l = 0) -> tot (fun v => g (k v) * c v) l = 0.
Proof.
  induction n as [|n IH]; intros l L H; [destruct l; [reflexivity|cbn [length] in L; lia]|]. destruct l as [|v l]; [reflexivity|]. set (b := k v) in *.
  assert (P : forall f : A -> Z, forall m, tot f m = tot (fun a => if k a =? b then f a else 0) m + tot f (filter (fun a => negb (k a =? b)) m)).
  { intros f. induction m as [|a m IHm]; [reflexivity|]. cbn [tot filter]. destruct (k a =? b); cbn [negb tot]; rewrite IHm; lia. }
  rewrite (P _ (v :: l)). rewrite (tot_same _ (fun a => g b * (if k a =? b then c a else 0))) by (intros a _; destruct (Z.eqb_spec (k a) b) as [->|]; lia).
  assert (M : forall m, tot (fun a => g b * (if k a =? b then c a else 0)) m = g b * tot (fun a => if k a =? b then c a else 0) m) by (induction m as [|a m IHm]; cbn [tot]; [lia|rewrite IHm; lia]).
  rewrite M. replace (g b * tot (fun a => if k a =? b then c a else 0) (v :: l)) with 0 by (destruct (H b) as [-> | ->]; lia).
  rewrite IH; [reflexivity| |].
  - cbn [filter]. fold b. rewrite Z.eqb_refl. cbn [negb]. cbn [length] in L. assert (F : forall m : list A, (length (filter (fun a => negb (k a =? b)%Z) m) <= length m)%nat) by (induction m as [|a m IHm]; cbn [filter length]; [lia|destruct (negb _); cbn [length]; lia]). specialize (F l). lia.
  - intros b'. destruct (H b') as [E|E]; [left; exact E|]. destruct (Z.eq_dec b' b) as [-> | N].
    + right. clear. induction (v :: l) as [|a m IHm]; [reflexivity|]. cbn [filter]. destruct (k a =? b) eqn:Q; cbn [negb tot]; [exact IHm|]. rewrite Q, IHm. reflexivity.
    + right. rewrite (P _ (v :: l)) in E. rewrite (tot_same (fun a => if k a =? b then _ else 0) (fun _ => 0)) in E.
      * assert (Z0 : forall m : list A, tot (fun _ => 0) m = 0) by (induction m as [|a m IHm]; cbn [tot]; lia). rewrite Z0 in E. lia.
      * intros a _. destruct (Z.eqb_spec (k a) b), (Z.eqb_spec (k a) b'); lia.
Qed.

Definition icept (r : Z) (v : v45) : Z := py (v_pt v) - r * px (v_pt v).
Definition active (r : Z) (x : R) (v : v45) : Z := if rleb (IZR (px (v_pt v))) x then slope_count v r else 0.
Definition under (r : Z) (x y : R) (b : Z) : Z := if rltb (IZR b + IZR r * x)%R y then 1 else 0.
Lemma depth_parts v x y : v45_depth v x y = under (-1) x y (icept (-1) v) * active (-1) x v + under 0 x y (icept 0 v) * active 0 x v + under 1 x y (icept 1 v) * active 1 x v.
Proof.
  unfold v45_depth, active, under, icept, line_below, slope_count. cbn [Z.eqb Pos.eqb]. rewrite !minus_IZR, !mult_IZR. set (a := IZR (px (v_pt v))). set (c := IZR (py (v_pt v))).
  replace (c - -1 * a + -1 * x)%R with (c + -1 * (x - a))%R by ring. replace (c - 0 * a + 0 * x)%R with (c + 0 * (x - a))%R by ring. replace (c - 1 * a + 1 * x)%R with (c + 1 * (x - a))%R by ring.
  destruct (rleb a x); [|lia]. destruct (rltb (c + -1 * _) y), (rltb (c + 0 * _) y), (rltb (c + 1 * _) y); lia.
Qed.
Lemma depth_tot l x y : depth45 l x y = tot (fun v => under (-1) x y (icept (-1) v) * active (-1) x v) l + tot (fun v => under 0 x y (icept 0 v) * active 0 x v) l + tot (fun v => under 1 x y (icept 1 v) * active 1 x v) l.
Proof. unfold depth45. induction l as [|v l IH]; [reflexivity|]. cbn [tot]. rewrite IH, depth_parts. lia. Qed.
Lemma line_all r b x l : boundary45 l -> -1 <= r <= 1 -> (forall v, In v l -> icept r v = b -> (IZR (px (v_pt v)) <= x)%R) -> tot (fun v => if icept r v =? b then active r x v else 0) l = 0.
Proof.
  intros [_ [L _]] Hr H. refine (eq_trans _ (L r b Hr)). unfold line_total. apply tot_same. intros v V. unfold icept. replace (py (v_pt v) =? r * px (v_pt v) + b) with (py (v_pt v) - r * px (v_pt v) =? b) by lia. destruct (Z.eqb_spec (py (v_pt v) - r * px (v_pt v)) b) as [E|E]; [|reflexivity].
  unfold active. replace (rleb (IZR (px (v_pt v))) x) with true; [reflexivity|]. symmetry. apply rleb_iff, (H v V E).
Qed.
Lemma line_none r b x l : (forall v, In v l -> icept r v = b -> (x < IZR (px (v_pt v)))%R) -> tot (fun v => if icept r v =? b then active r x v else 0) l = 0.
Proof.
  intros H. rewrite (tot_same _ (fun _ => 0)); [induction l as [|v l IH]; cbn [tot]; [reflexivity|apply IH; intros; apply H; [right|]; assumption]|]. intros v V. destruct (Z.eqb_spec (icept r v) b) as [E|E]; [|reflexivity]. unfold active. destruct (rleb (IZR (px (v_pt v))) x) eqn:Q; [|reflexivity]. apply rleb_iff in Q. specialize (H v V E). lra.
Qed.
Definition inside (r : rect) (v : v45) : Prop := xl r <= px (v_pt v) <= xh r /\ yl r <= py (v_pt v) <= yh r.
Lemma line_at r v : IZR (py (v_pt v)) = (IZR (icept r v) + IZR r * IZR (px (v_pt v)))%R.
Proof. unfold icept. rewrite minus_IZR, mult_IZR. ring. Qed.
(* a line that is outside of the rectangle at x has no edge there *)
Lemma line_out q r b x l : boundary45 l -> Forall (inside q) l -> -1 <= r <= 1 -> (IZR b + IZR r * x < IZR (yl q) \/ IZR (yh q) < IZR b + IZR r * x)%R -> tot (fun v => if icept r v =? b then active r x v else 0) l = 0.
Proof.
  intros B I Hr H. rewrite Forall_forall in I.
  assert (F : forall v, In v l -> icept r v = b -> (IZR (yl q) <= IZR b + IZR r * IZR (px (v_pt v)) <= IZR (yh q))%R).
  { intros v V E. rewrite <- E, <- line_at. destruct (I v V) as [_ [I1 I2]]. split; apply IZR_le; assumption. }
  assert (r = -1 \/ r = 0 \/ r = 1) as [-> | [-> | ->]] by lia; destruct H as [H|H].
  all: try (apply line_all; [exact B|lia|]; intros v V E; specialize (F v V E); lra).
  all: apply line_none; intros v V E; specialize (F v V E); lra.
Qed.
Lemma outside_zero q l x y : boundary45 l -> Forall (inside q) l -> depth45 l x y <> 0 -> (IZR (xl q) <= x < IZR (xh q) /\ IZR (yl q) < y <= IZR (yh q))%R.
Proof.
  intros B I H. pose proof I as I0. rewrite Forall_forall in I.
  assert (G : forall r, -1 <= r <= 1 -> (forall b, under r x y b = 0 \/ tot (fun v => if icept r v =? b then active r x v else 0) l = 0) -> tot (fun v => under r x y (icept r v) * active r x v) l = 0) by (intros r Hr K; apply (tot_group (icept r) (active r x) (under r x y) (length l) l (le_n _) K)).
  assert (G' : (forall r b, -1 <= r <= 1 -> under r x y b = 0 \/ tot (fun v => if icept r v =? b then active r x v else 0) l = 0) -> False).
  { intros K. apply H. rewrite depth_tot, !G by (try lia; intros b; apply K; lia). reflexivity. }
  split; split.
  - apply Rnot_lt_le. intros L. apply G'. intros r b Hr. right. apply line_none. intros v V _. destruct (I v V) as [[I1 _] _]. apply IZR_le in I1. lra.
  - apply Rnot_le_lt. intros L. apply G'. intros r b Hr. right. apply line_all; [exact B|exact Hr|]. intros v V _. destruct (I v V) as [[_ I1] _]. apply IZR_le in I1. lra.
  - apply Rnot_le_lt. intros L. apply G'. intros r b Hr. unfold under. destruct (rltb _ y) eqn:Q; [right|left; reflexivity]. apply rltb_iff in Q. apply (line_out q); try assumption. left. lra.
  - apply Rnot_lt_le. intros L. apply H.
    assert (G2 : forall r, -1 <= r <= 1 -> tot (fun v => under r x y (icept r v) * active r x v) l = tot (active r x) l).
    { intros r Hr. assert (K : tot (fun v => (1 - under r x y (icept r v)) * active r x v) l = 0).
      { apply (tot_group (icept r) (active r x) (fun b => 1 - under r x y b) (length l) l (le_n _)). intros b. unfold under. destruct (rltb _ y) eqn:Q; [left; reflexivity|right]. apply (line_out q); try assumption. right. apply Rlt_le_trans with y; [exact L|]. apply Rnot_lt_le. intros A. apply rltb_iff in A. congruence. }
      assert (T : tot (active r x) l - tot (fun v => under r x y (icept r v) * active r x v) l = 0) by (rewrite tot_sub; refine (eq_trans _ K); apply tot_same; intros; lia). lia. }
    rewrite depth_tot, !G2 by lia. destruct B as [B1 [_ B3]]. rewrite Forall_forall in B1.
    assert (K : tot (fun v => (if rleb (IZR (px (v_pt v))) x then 1 else 0) * v_vert v) l = 0) by (apply (tot_group (fun v => px (v_pt v)) v_vert (fun X => if rleb (IZR X) x then 1 else 0) (length l) l (le_n _)); intros X; right; exact (B3 X)).
    refine (eq_trans _ K). clear - B1. induction l as [|v l IH]; [reflexivity|]. cbn [tot]. rewrite <- IH by (intros; apply B1; right; assumption). pose proof (B1 v (or_introl eq_refl)) as E. unfold balanced in E. unfold active, slope_count. cbn [Z.eqb Pos.eqb]. destruct (rleb _ _); lia.
Qed.
(* extents *)
Definition grow_rect (r : rect) (v : v45) : rect :=
  mk_rect (if px (v_pt v) <? xl r then px (v_pt v) else xl r) (if px (v_pt v) >? xh r then px (v_pt v) else xh r) (if py (v_pt v) <? yl r then py (v_pt v) else yl r) (if py (v_pt v) >? yh r then py (v_pt v) else yh r).
Lemma grow_fold l : forall r q, fold_left grow_rect l r = q ->
  (xl q <= xl r /\ xh r <= xh q /\ yl q <= yl r /\ yh r <= yh q) /\ Forall (inside q) l /\
  (xl q = xl r \/ exists v, In v l /\ px (v_pt v) = xl q) /\ (xh q = xh r \/ exists v, In v l /\ px (v_pt v) = xh q) /\ (yl q = yl r \/ exists v, In v l /\ py (v_pt v) = yl q) /\ (yh q = yh r \/ exists v, In v l /\ py (v_pt v) = yh q).
Proof.
  induction l as [|v l IH]; cbn [fold_left]; intros r q E; [subst q; repeat split; try lia; try constructor; left; reflexivity|].
  destruct (IH _ _ E) as [[A1 [A2 [A3 A4]]] [F [C1 [C2 [C3 C4]]]]]. unfold grow_rect in A1, A2, A3, A4, C1, C2, C3, C4. cbn [xl xh yl yh] in *. clear E IH.
  assert (W : forall (P : v45 -> Z) z, (exists w, In w l /\ P w = z) -> exists w, In w (v :: l) /\ P w = z) by (intros P z [w [H1 H2]]; exists w; split; [right; exact H1|exact H2]).
  assert (V : forall (P : v45 -> Z) z, z = P v -> exists w, In w (v :: l) /\ P w = z) by (intros P z H; exists v; split; [left; reflexivity|congruence]).
  split; [repeat split; destruct (px (v_pt v) <? xl r) eqn:?, (px (v_pt v) >? xh r) eqn:?, (py (v_pt v) <? yl r) eqn:?, (py (v_pt v) >? yh r) eqn:?; lia|].
  split; [constructor; [unfold inside; destruct (px (v_pt v) <? xl r) eqn:?, (px (v_pt v) >? xh r) eqn:?, (py (v_pt v) <? yl r) eqn:?, (py (v_pt v) >? yh r) eqn:?; lia|exact F]|].
  split; [|split; [|split]].
  - destruct C1 as [C|C]; [|right; apply W, C]. destruct (px (v_pt v) <? xl r); [right; apply (V (fun v => px (v_pt v))), C|left; exact C].
  - destruct C2 as [C|C]; [|right; apply W, C]. destruct (px (v_pt v) >? xh r); [right; apply (V (fun v => px (v_pt v))), C|left; exact C].
  - destruct C3 as [C|C]; [|right; apply W, C]. destruct (py (v_pt v) <? yl r); [right; apply (V (fun v => py (v_pt v))), C|left; exact C].
  - destruct C4 as [C|C]; [|right; apply W, C]. destruct (py (v_pt v) >? yh r); [right; apply (V (fun v => py (v_pt v))), C|left; exact C].
Qed.
Lemma extents_fold l : extents_data l = match l with [] => None | _ => Some (fold_left grow_rect l (mk_rect INT_MAX INT_MIN INT_MAX INT_MIN)) end.
Proof. destruct l; reflexivity. Qed.
(* near a vertex with counts there is a covered place *)
Lemma near l p r : -1 <= r <= 1 -> count_at p r l <> 0 -> exists x y, depth45 l x y <> 0 /\ (IZR (px p) - 1 < x < IZR (px p) + 1)%R /\ (IZR (py p) - 1 < y < IZR (py p) + 1)%R.
Proof.
  intros Hr H. rewrite count_at_left in H.
  assert (J : forall X, left_on X r (py p - r * px p) l <> 0 -> (X = px p \/ X = px p - 1) -> exists x y, depth45 l x y <> 0 /\ (IZR (px p) - 1 < x < IZR (px p) + 1)%R /\ (IZR (py p) - 1 < y < IZR (py p) + 1)%R).
  { intros X K E. rewrite <- (jump _ _ _ _ Hr) in K.
    assert (D : exists d, (d = 1 \/ d = -1) /\ depth45 l (IZR X + / 4) (IZR (8 * (r * X + (py p - r * px p)) + 2 * r + d) / 8) <> 0).
    { destruct (Z.eq_dec (depth45 l (IZR X + / 4) (IZR (8 * (r * X + (py p - r * px p)) + 2 * r + 1) / 8)) 0) as [Z0|N]; [|exists 1; split; [left; reflexivity|exact N]]. exists (-1). split; [right; reflexivity|]. replace (8 * (r * X + (py p - r * px p)) + 2 * r + -1) with (8 * (r * X + (py p - r * px p)) + 2 * r - 1) by lia. lia. }
    destruct D as [d [Hd D]]. exists (IZR X + / 4)%R, (IZR (8 * (r * X + (py p - r * px p)) + 2 * r + d) / 8)%R. split; [exact D|]. split.
    - destruct E as [-> | ->]; rewrite ?minus_IZR; lra.
    - assert (B : 8 * py p - 8 < 8 * (r * X + (py p - r * px p)) + 2 * r + d < 8 * py p + 8) by (destruct E as [-> | ->]; assert (r = -1 \/ r = 0 \/ r = 1) as [-> | [-> | ->]] by lia; lia).
      set (m := 8 * (r * X + (py p - r * px p)) + 2 * r + d) in *. destruct B as [B1 B2]. apply IZR_lt in B1, B2. rewrite minus_IZR, mult_IZR in B1. rewrite plus_IZR, mult_IZR in B2. lra. }
  destruct (Z.eq_dec (left_on (px p) r (py p - r * px p) l) 0) as [Z0|N]; [|apply (J _ N); left; reflexivity].
  apply (J (px p - 1)); [lia|right; reflexivity].
Qed.
