(* Lemmas about the integer parts of the Voronoi predicates. *)
From Coq Require Import Sorting.Permutation Sorting.Sorted.
From Verif Require Import Base Scan90Spec Set90Spec Set90Model GeoSpec IvlModel IvlProofs RectModel RectProofs RectDist XIntSpec XIntModel XIntProofs VorSpec VorModel.

(* ---------- doubles ---------- *)
Definition key (bits : Z) : Z := if bits <? 2 ^ 63 then bits else - (bits - 2 ^ 63).
Lemma fmag_lo m : 0 <= m -> 2 ^ 52 <= m -> 2 ^ (51 + m / 2 ^ 52) <= fmag m.
Proof.
  intros P H. unfold fmag. assert (1 <= m / 2 ^ 52) by (apply Z.div_le_lower_bound; lia). rewrite (proj2 (Z.eqb_neq (m / 2 ^ 52) 0)) by lia.
  pose proof (Z.mod_pos_bound m (2 ^ 52) ltac:(lia)). replace (51 + m / 2 ^ 52) with (52 + (m / 2 ^ 52 - 1)) by ring. rewrite Z.pow_add_r by lia.
  pose proof (Z.pow_pos_nonneg 2 (m / 2 ^ 52 - 1) ltac:(lia) ltac:(lia)). nia.
Qed.
Lemma fmag_hi m : 0 <= m -> 0 <= fmag m < 2 ^ (52 + m / 2 ^ 52).
Proof.
  intros P. unfold fmag. pose proof (Z.mod_pos_bound m (2 ^ 52) ltac:(lia)). assert (0 <= m / 2 ^ 52) by (apply Z.div_pos; lia).
  destruct (m / 2 ^ 52 =? 0) eqn:E; [rewrite (proj1 (Z.eqb_eq _ _) E); change (52 + 0) with 52; lia|].
  replace (52 + m / 2 ^ 52) with (53 + (m / 2 ^ 52 - 1)) by ring. rewrite Z.pow_add_r by lia.
  pose proof (Z.pow_pos_nonneg 2 (m / 2 ^ 52 - 1) ltac:(lia) ltac:(lia)). change (2 ^ 53) with (2 * 2 ^ 52). nia.
Qed.
Lemma fmag_mono m n : 0 <= m < n -> fmag m < fmag n.
Proof.
  intros [P H]. assert (D : m / 2 ^ 52 <= n / 2 ^ 52) by (apply Z.div_le_mono; lia). pose proof (Z.div_pos m (2 ^ 52) ltac:(lia) ltac:(lia)) as DP.
  destruct (Z.eq_dec (m / 2 ^ 52) (n / 2 ^ 52)) as [E|E].
  - unfold fmag. rewrite <- E. pose proof (Z.div_mod m (2 ^ 52) ltac:(lia)). pose proof (Z.div_mod n (2 ^ 52) ltac:(lia)).
    destruct (m / 2 ^ 52 =? 0) eqn:E0; [lia|]. pose proof (Z.pow_pos_nonneg 2 (m / 2 ^ 52 - 1) ltac:(lia) ltac:(lia)). apply Z.mul_lt_mono_pos_r; lia.
  - pose proof (fmag_hi m P). assert (N2 : 2 ^ 52 <= n). { destruct (Z.leb_spec (2 ^ 52) n) as [L|L]; [exact L|]. rewrite (Z.div_small n) in * by lia. lia. }
    pose proof (fmag_lo n ltac:(lia) N2). assert (2 ^ (52 + m / 2 ^ 52) <= 2 ^ (51 + n / 2 ^ 52)) by (apply Z.pow_le_mono_r; lia). lia.
Qed.
Lemma fmag_0 : fmag 0 = 0. Proof. reflexivity. Qed.
Definition kval (k : Z) : Z := if k <? 0 then - fmag (- k) else fmag k.
Lemma kval_mono k l : k < l -> kval k < kval l.
Proof.
  intros H. unfold kval. destruct (k <? 0) eqn:E1, (l <? 0) eqn:E2; try lia.
  - pose proof (fmag_mono (- l) (- k) ltac:(lia)). lia.
  - pose proof (fmag_mono 0 (- k) ltac:(lia)). rewrite fmag_0 in *. pose proof (fmag_hi l ltac:(lia)). lia.
  - apply fmag_mono. lia.
Qed.
Lemma kval_lt k l : kval k < kval l <-> k < l.
Proof. split; [|apply kval_mono]. intros H. destruct (Z.lt_total k l) as [L|[L|L]]; [exact L|subst; lia|]. pose proof (kval_mono l k L). lia. Qed.
Lemma kval_inj k l : kval k = kval l -> k = l.
Proof. intros H. destruct (Z.lt_total k l) as [L|[L|L]]; [|exact L|]; pose proof (kval_mono _ _ L); lia. Qed.
Lemma fval_key bits : finite bits -> fval bits = kval (key bits).
Proof.
  intros [R F]. unfold fval, key, kval. destruct (bits <? 2 ^ 63) eqn:E; [rewrite (proj2 (Z.ltb_ge bits 0)) by lia; reflexivity|].
  destruct (- (bits - 2 ^ 63) <? 0) eqn:E2; [rewrite Z.opp_involutive; reflexivity|]. replace (bits - 2 ^ 63) with 0 by lia. reflexivity.
Qed.
Definition MAXK : Z := 2047 * 2 ^ 52 - 1.
Lemma key_range bits : finite bits -> - MAXK <= key bits <= MAXK.
Proof.
  intros [R F]. unfold key, MAXK. assert (M : bits mod 2 ^ 63 < 2047 * 2 ^ 52).
  { pose proof (Z.div_mod (bits mod 2 ^ 63) (2 ^ 52) ltac:(lia)). pose proof (Z.mod_pos_bound (bits mod 2 ^ 63) (2 ^ 52) ltac:(lia)). lia. }
  destruct (bits <? 2 ^ 63) eqn:E.
  - rewrite Z.mod_small in M by lia. lia.
  - replace bits with ((bits - 2 ^ 63) + 1 * 2 ^ 63) in M by ring. rewrite Z.mod_add, Z.mod_small in M by lia. lia.
Qed.
Lemma key_onto k : - MAXK <= k <= MAXK -> exists bits, finite bits /\ key bits = k.
Proof.
  unfold MAXK. intros R. destruct (Z.leb_spec 0 k) as [H|H].
  - exists k. unfold finite, key. rewrite (proj2 (Z.ltb_lt k (2 ^ 63))) by lia. rewrite Z.mod_small by lia. split; [|reflexivity]. split; [lia|]. apply Z.div_lt_upper_bound; lia.
  - exists (- k + 2 ^ 63). unfold finite, key. rewrite (proj2 (Z.ltb_ge (- k + 2 ^ 63) (2 ^ 63))) by lia.
    replace (- k + 2 ^ 63) with (- k + 1 * 2 ^ 63) at 3 by ring. rewrite Z.mod_add, Z.mod_small by lia. split; [|lia]. split; [lia|]. apply Z.div_lt_upper_bound; lia.
Qed.
Lemma ulp_ll_key bits : finite bits -> ulp_ll bits = 2 ^ 63 - key bits.
Proof.
  intros F. pose proof (key_range bits F) as K. destruct F as [R F]. unfold ulp_ll, key, MAXK in *. destruct (bits <? 2 ^ 63) eqn:E; [|lia].
  apply u64_id. Wlit. lia.
Qed.
(* maxUlps is unsigned, so it is not negative *)
Lemma ulp_spec a b u : finite a -> finite b -> 0 <= u ->
  ulp_comparison a b u = if Z.abs (key a - key b) <=? u then 0 else Z.sgn (key a - key b) .
Proof.
  intros Fa Fb U. unfold ulp_comparison. rewrite (ulp_ll_key a Fa), (ulp_ll_key b Fb). pose proof (key_range a Fa). pose proof (key_range b Fb). unfold MAXK in *. cbv zeta.
  destruct (2 ^ 63 - key a >? 2 ^ 63 - key b) eqn:E.
  - rewrite u64_id by (Wlit; lia). replace (2 ^ 63 - key a - (2 ^ 63 - key b)) with (key b - key a) by ring. replace (Z.abs (key a - key b)) with (key b - key a) by lia.
    destruct (key b - key a <=? u); [reflexivity|]. rewrite Z.sgn_neg by lia. reflexivity.
  - rewrite u64_id by (Wlit; lia). replace (2 ^ 63 - key b - (2 ^ 63 - key a)) with (key a - key b) by ring. replace (Z.abs (key a - key b)) with (key a - key b) by lia.
    destruct (key a - key b <=? u) eqn:Q; [reflexivity|]. rewrite Z.sgn_pos by lia. reflexivity.
Qed.
(* the doubles in (a, b] *)
Fixpoint zrange (k : Z) (n : nat) : list Z := match n with O => [] | S n' => k :: zrange (k + 1) n' end.
Lemma zrange_in n : forall k x, In x (zrange k n) <-> k <= x < k + Z.of_nat n.
Proof. induction n as [|n IH]; intros k x; cbn [zrange In]; [lia|]. rewrite IH. lia. Qed.
Lemma zrange_length n : forall k, length (zrange k n) = n.
Proof. induction n as [|n IH]; intros k; cbn [zrange length]; [reflexivity|]. rewrite IH. reflexivity. Qed.
Lemma zrange_nodup n : forall k, NoDup (zrange k n).
Proof. induction n as [|n IH]; intros k; cbn [zrange]; constructor; [rewrite zrange_in; lia|apply IH]. Qed.
Lemma nodup_map_inj (f : Z -> Z) l : (forall x y, f x = f y -> x = y) -> NoDup l -> NoDup (map f l).
Proof.
  intros I. induction 1 as [|x l N D IH]; cbn [map]; constructor; [|exact IH]. intros H. apply in_map_iff in H as [y [E Y]]. apply I in E. subst. contradiction.
Qed.
Lemma doubles_between a b : finite a -> finite b -> key a <= key b ->
  exists l, NoDup l /\ (forall v, In v l <-> representable v /\ fval a < v <= fval b) /\ Z.of_nat (length l) = key b - key a.
Proof.
  intros Fa Fb L. exists (map kval (zrange (key a + 1) (Z.to_nat (key b - key a)))). split; [apply nodup_map_inj; [exact kval_inj|apply zrange_nodup]|].
  split; [|rewrite map_length, zrange_length; lia]. intros v. rewrite in_map_iff. rewrite (fval_key a Fa), (fval_key b Fb). pose proof (key_range a Fa). pose proof (key_range b Fb). split.
  - intros [k [<- K]]. apply zrange_in in K. split.
    + destruct (key_onto k ltac:(lia)) as [bits [F E]]. exists bits. split; [exact F|]. rewrite fval_key by exact F. rewrite E. reflexivity.
    + split; [apply kval_mono; lia|]. destruct (Z.eq_dec k (key b)) as [->|N]; [lia|]. pose proof (kval_mono k (key b) ltac:(lia)). lia.
  - intros [[bits [F <-]] [V1 V2]]. rewrite (fval_key bits F) in *. exists (key bits). split; [reflexivity|]. apply zrange_in.
    apply (proj1 (kval_lt _ _)) in V1. destruct (Z.leb_spec (key bits) (key b)) as [Q|Q]; [lia|]. pose proof (kval_mono _ _ Q). lia.
Qed.
Lemma fval_lt_key a b : finite a -> finite b -> (fval a < fval b <-> key a < key b).
Proof. intros Fa Fb. rewrite (fval_key a Fa), (fval_key b Fb). apply kval_lt. Qed.

(* ---------- rounding ---------- *)
Lemma to_fpt_error z : 0 <= z -> Z.abs (to_fpt z - z) * 2 ^ 53 <= z.
Proof.
  intros P. unfold to_fpt. cbv zeta. set (e := Z.log2 z - 52). destruct (e <=? 0) eqn:E; [rewrite Z.sub_diag; lia|].
  assert (Z1 : 0 < z). { destruct (Z.eq_dec z 0) as [->|]; [vm_compute in E; discriminate|lia]. }
  assert (LB : 2 ^ (e + 52) <= z). { unfold e. replace (Z.log2 z - 52 + 52) with (Z.log2 z) by ring. apply Z.log2_spec. exact Z1. }
  assert (EP : 0 < 2 ^ e) by (apply Z.pow_pos_nonneg; lia). pose proof (Z.div_mod z (2 ^ e) ltac:(lia)) as DM. pose proof (Z.mod_pos_bound z (2 ^ e) EP) as MB.
  set (q := z / 2 ^ e) in *. set (r := z mod 2 ^ e) in *. rewrite Z.pow_add_r in LB by lia. cbv zeta.
  assert (2 * Z.abs ((if (2 * r >? 2 ^ e) || ((2 * r =? 2 ^ e) && Z.odd q) then (q + 1) * 2 ^ e else q * 2 ^ e) - z) <= 2 ^ e).
  { destruct ((2 * r >? 2 ^ e) || ((2 * r =? 2 ^ e) && Z.odd q)) eqn:C.
    - assert (2 ^ e <= 2 * r) by (apply orb_true_iff in C as [C|C]; [lia|apply andb_true_iff in C as [C _]; lia]). replace ((q + 1) * 2 ^ e - z) with (2 ^ e - r) by (rewrite DM at 1; ring). lia.
    - assert (2 * r <= 2 ^ e) by (apply orb_false_iff in C as [C _]; lia). replace (q * 2 ^ e - z) with (- r) by (rewrite DM at 1; ring). lia. }
  change (2 ^ 53) with (2 * 2 ^ 52). nia.
Qed.
Lemma to_fpt_nonneg z : 0 <= z -> 0 <= to_fpt z. Proof. intros P. pose proof (to_fpt_error z P). lia. Qed.
Lemma to_fpt_pos z : 0 < z -> 0 < to_fpt z. Proof. intros P. pose proof (to_fpt_error z ltac:(lia)). lia. Qed.
Lemma to_fpt_exact z : 0 <= z < 2 ^ 53 -> to_fpt z = z.
Proof.
  intros [P B]. unfold to_fpt. cbv zeta. destruct (Z.eq_dec z 0) as [->|N]; [reflexivity|]. assert (Z.log2 z < 53) by (apply Z.log2_lt_pow2; lia). rewrite (proj2 (Z.leb_le (Z.log2 z - 52) 0)) by lia. reflexivity.
Qed.

(* ---------- cross product ---------- *)
Lemma abs64_ok a : - 2 ^ 63 < a < 2 ^ 63 -> abs64 a = Ok (Z.abs a).
Proof.
  intros R. unfold abs64. destruct (a <? 0) eqn:E.
  - rewrite chk64_ok by lia. cbn [obind]. rewrite u64_id by (Wlit; lia). f_equal. lia.
  - rewrite u64_id by (Wlit; lia). f_equal. lia.
Qed.
(* the value and its distance to the determinant, in the absence of wrap-around *)
Definition rounds_to (v d : Z) : Prop := Z.sgn v = Z.sgn d /\ Z.abs (v - d) * 2 ^ 53 <= Z.abs d /\ (Z.abs d < 2 ^ 53 -> v = d).
Lemma rounds_pos d : 0 <= d -> rounds_to (to_fpt d) d.
Proof.
  intros H. split; [|split].
  - destruct (Z.eq_dec d 0) as [->|N]; [reflexivity|]. pose proof (to_fpt_pos d ltac:(lia)). lia.
  - rewrite (Z.abs_eq d) by lia. apply to_fpt_error. exact H.
  - intros B. apply to_fpt_exact. lia.
Qed.
Lemma rounds_neg d : 0 <= d -> rounds_to (- to_fpt d) (- d).
Proof.
  intros H. destruct (rounds_pos d H) as [A [B C]]. split; [rewrite !Z.sgn_opp; lia|]. split; [replace (- to_fpt d - - d) with (- (to_fpt d - d)) by ring; rewrite !Z.abs_opp; exact B|].
  rewrite Z.abs_opp. intros Q. rewrite C by exact Q. reflexivity.
Qed.
Lemma robust_cross_spec a1 b1 a2 b2 : Z.abs a1 < W -> Z.abs b1 < W -> Z.abs a2 < W -> Z.abs b2 < W -> Z.abs (a1 * b2 - b1 * a2) < W * W ->
  exists v, robust_cross_product a1 b1 a2 b2 = Ok v /\ rounds_to v (a1 * b2 - b1 * a2).
Proof.
  intros A1 B1 A2 B2 D. unfold robust_cross_product. rewrite !abs64_ok by (Wlit; lia). cbn [obind].
  rewrite !(u64_id (_ * _)) by nia. eexists. split; [reflexivity|].
  assert (L : Z.abs a1 * Z.abs b2 = if xorb (a1 <? 0) (b2 <? 0) then - (a1 * b2) else a1 * b2) by (rewrite <- Z.abs_mul; destruct (a1 <? 0) eqn:E1, (b2 <? 0) eqn:E2; cbn [xorb]; nia).
  assert (R : Z.abs b1 * Z.abs a2 = if xorb (a2 <? 0) (b1 <? 0) then - (b1 * a2) else b1 * a2) by (rewrite <- Z.abs_mul; destruct (a2 <? 0) eqn:E1, (b1 <? 0) eqn:E2; cbn [xorb]; nia).
  assert (LP : 0 <= Z.abs a1 * Z.abs b2 < W * W) by nia. assert (RP : 0 <= Z.abs b1 * Z.abs a2 < W * W) by nia.
  set (l := Z.abs a1 * Z.abs b2) in *. set (r := Z.abs b1 * Z.abs a2) in *. clearbody l r.
  set (s := a1 * b2) in *. set (t := b1 * a2) in *. clearbody s t.
  destruct (xorb (a1 <? 0) (b2 <? 0)), (xorb (a2 <? 0) (b1 <? 0)).
  - destruct (l >? r) eqn:E.
    + rewrite u64_id by lia. replace (s - t) with (- (l - r)) by lia. apply rounds_neg. lia.
    + rewrite u64_id by lia. replace (s - t) with (r - l) by lia. apply rounds_pos. lia.
  - rewrite u64_id by lia. replace (s - t) with (- (l + r)) by lia. apply rounds_neg. lia.
  - rewrite u64_id by lia. replace (s - t) with (l + r) by lia. apply rounds_pos. lia.
  - destruct (l <? r) eqn:E.
    + rewrite u64_id by lia. replace (s - t) with (- (r - l)) by lia. apply rounds_neg. lia.
    + rewrite u64_id by lia. replace (s - t) with (l - r) by lia. apply rounds_pos. lia.
Qed.
Lemma ot_value_sgn v : ot_value v = Z.sgn v.
Proof. unfold ot_value. destruct v; reflexivity. Qed.
(* the area of a triangle in a square *)
Lemma det_bound x1 y1 x2 y2 x3 y3 lo hi : lo <= x1 <= hi -> lo <= y1 <= hi -> lo <= x2 <= hi -> lo <= y2 <= hi -> lo <= x3 <= hi -> lo <= y3 <= hi ->
  Z.abs ((x2 - x1) * (y3 - y1) - (y2 - y1) * (x3 - x1)) <= (hi - lo) * (hi - lo).
Proof.
  intros. set (M := hi - lo).
  assert (G : forall x1 y1 x2 y2 x3 y3, 0 <= x1 <= M -> 0 <= y1 <= M -> 0 <= x2 <= M -> 0 <= y2 <= M -> 0 <= x3 <= M -> 0 <= y3 <= M -> (x2 - x1) * (y3 - y1) - (y2 - y1) * (x3 - x1) <= M * M).
  { clear. intros x1 y1 x2 y2 x3 y3 A1 B1 A2 B2 A3 B3.
    (* det = x1 (y2 - y3) + x2 (y3 - y1) + x3 (y1 - y2), linear in each x *)
    assert (E : (x2 - x1) * (y3 - y1) - (y2 - y1) * (x3 - x1) = x1 * (y2 - y3) + x2 * (y3 - y1) + x3 * (y1 - y2)) by ring. rewrite E. clear E.
    assert (P : forall x k, 0 <= x <= M -> x * k <= M * Z.max 0 k) by (intros; nia).
    pose proof (P x1 (y2 - y3) A1). pose proof (P x2 (y3 - y1) A2). pose proof (P x3 (y1 - y2) A3).
    assert (Z.max 0 (y2 - y3) + Z.max 0 (y3 - y1) + Z.max 0 (y1 - y2) <= M) by lia. nia. }
  apply Z.abs_le. split.
  - pose proof (G (x1 - lo) (y1 - lo) (x3 - lo) (y3 - lo) (x2 - lo) (y2 - lo) ltac:(lia) ltac:(lia) ltac:(lia) ltac:(lia) ltac:(lia) ltac:(lia)). nia.
  - pose proof (G (x1 - lo) (y1 - lo) (x2 - lo) (y2 - lo) (x3 - lo) (y3 - lo) ltac:(lia) ltac:(lia) ltac:(lia) ltac:(lia) ltac:(lia) ltac:(lia)). nia.
Qed.
Lemma ot_points_eq p q r : pt_int p -> pt_int q -> pt_int r -> ot_points p q r = Ok (Z.sgn (det3 p q r)).
Proof.
  intros P Q R. destruct p as [x1 y1], q as [x2 y2], r as [x3 y3]. unfold pt_int, is_int, INT_MIN, INT_MAX in *. cbn [px py] in *. unfold ot_points; cbn [px py].
  rewrite !chk64_ok by lia. cbn [obind].
  destruct (robust_cross_spec (x1 - x2) (y1 - y2) (x2 - x3) (y2 - y3)) as [v [E [S _]]]; try (Wlit; lia).
  - replace ((x1 - x2) * (y2 - y3) - (y1 - y2) * (x2 - x3)) with ((x2 - x1) * (y3 - y1) - (y2 - y1) * (x3 - x1)) by ring.
    pose proof (det_bound x1 y1 x2 y2 x3 y3 (-2147483648) 2147483647 ltac:(lia) ltac:(lia) ltac:(lia) ltac:(lia) ltac:(lia) ltac:(lia)). Wlit. lia.
  - rewrite E. cbn [obind]. rewrite ot_value_sgn, S. unfold det3; cbn [px py]. do 2 f_equal. ring.
Qed.

(* ---------- order of sites ---------- *)
Lemma pt_ext (p q : point) : px p = px q -> py p = py q -> p = q.
Proof. destruct p as [x1 y1], q as [x2 y2]; cbn [px py]; congruence. Qed.
Lemma p0_eq (a b : site) : px (s_p0 a) = px (s_p0 b) -> py (s_p0 a) = py (s_p0 b) -> s_p0 a = s_p0 b.
Proof. apply pt_ext. Qed.
Definition vertical_site (s : site) : Prop := px (s_p0 s) = px (s_p1 s).
Definition site_before (a b : site) : Prop :=
  px (s_p0 a) < px (s_p0 b) \/ px (s_p0 a) = px (s_p0 b) /\
  ( vertical_site a /\ ~ vertical_site b \/
    vertical_site a /\ vertical_site b /\ (py (s_p0 a) < py (s_p0 b) \/ py (s_p0 a) = py (s_p0 b) /\ is_point a /\ ~ is_point b) \/
    ~ vertical_site a /\ ~ vertical_site b /\ (py (s_p0 a) < py (s_p0 b) \/ py (s_p0 a) = py (s_p0 b) /\ det3 (s_p0 a) (s_p1 a) (s_p1 b) < 0)).
Lemma is_segment_spec s : is_segment s = true <-> ~ is_point s.
Proof. unfold is_segment, is_point. rewrite negb_true_iff, <- not_true_iff_false, pt_eqb_spec. tauto. Qed.
Lemma is_segment_false s : is_segment s = false <-> is_point s.
Proof. unfold is_segment, is_point. rewrite negb_false_iff, pt_eqb_spec. tauto. Qed.
Lemma point_vertical s : is_point s -> vertical_site s.
Proof. unfold is_point, vertical_site. intros ->. reflexivity. Qed.
Lemma site_less_eq a b : site_ok a -> site_ok b -> exists c, site_less a b = Ok c /\ (c = true <-> site_before a b).
Proof.
  intros [A0 [A1 A2]] [B0 [B1 B2]]. unfold site_less, site_before.
  destruct (px (s_p0 a) =? px (s_p0 b)) eqn:EX; cbn [negb]; [|eexists; split; [reflexivity|]; lia].
  assert (VA : is_vertical a = true <-> vertical_site a) by (unfold is_vertical, vertical_site; lia). assert (VB : is_vertical b = true <-> vertical_site b) by (unfold is_vertical, vertical_site; lia).
  pose proof (point_vertical a) as PA. pose proof (point_vertical b) as PB.
  destruct (is_segment a) eqn:SA; cbn [negb]; [apply is_segment_spec in SA|apply is_segment_false in SA].
  - destruct (is_vertical b) eqn:EB; [|destruct (is_vertical a) eqn:EA].
    + destruct (is_vertical a) eqn:EA; (eexists; split; [reflexivity|]).
      * assert (vertical_site a) by tauto. assert (vertical_site b) by tauto. split; intros H1; [right; split; [lia|]; right; left; split; [assumption|]; split; [assumption|]; left; lia|].
        destruct H1 as [H1|[_ [[_ H1]|[[_ [_ [H1|[_ [H1 _]]]]]|[H1 _]]]]]; try lia; tauto.
      * assert (~ vertical_site a) by (intros Q; apply VA in Q; discriminate). split; [discriminate|]. intros [H1|[_ [[H1 _]|[[H1 _]|[_ [H1 _]]]]]]; try lia; tauto.
    + assert (~ vertical_site b) by (intros Q; apply VB in Q; discriminate). eexists; split; [reflexivity|]. split; [intros _; right; split; [lia|]; left; tauto|reflexivity].
    + assert (NA : ~ vertical_site a) by (intros Q; apply VA in Q; discriminate). assert (NB : ~ vertical_site b) by (intros Q; apply VB in Q; discriminate).
      destruct (py (s_p0 a) =? py (s_p0 b)) eqn:EY; cbn [negb].
      * assert (E0 : s_p0 a = s_p0 b) by (apply pt_ext; lia).
        rewrite ot_points_eq by assumption. cbn [obind]. eexists. split; [reflexivity|].
        assert (D : det3 (s_p1 a) (s_p0 a) (s_p1 b) = - det3 (s_p0 a) (s_p1 a) (s_p1 b)) by (unfold det3; ring). rewrite D.
        rewrite Z.eqb_eq. split.
        -- intros H. right. split; [lia|]. right. right. split; [assumption|]. split; [assumption|]. right. split; [lia|]. destruct (Z.sgn_spec (- det3 (s_p0 a) (s_p1 a) (s_p1 b))) as [[? ?]|[[? ?]|[? ?]]]; lia.
        -- intros [H1|[_ [[H1 _]|[[H1 _]|[_ [_ [H1|[_ H1]]]]]]]]; try lia; try tauto.
      * eexists. split; [reflexivity|]. split.
        -- intros H. right. split; [lia|]. right. right. split; [assumption|]. split; [assumption|]. left. lia.
        -- intros [H1|[_ [[H1 _]|[[H1 _]|[_ [_ [H1|[H1 _]]]]]]]]; try lia; try tauto.
  - specialize (PA SA). destruct (is_segment b) eqn:SB; cbn [negb]; [apply is_segment_spec in SB|apply is_segment_false in SB].
    + destruct (is_vertical b) eqn:EB; (eexists; split; [reflexivity|]).
      * assert (vertical_site b) by tauto. split.
        -- intros H1. right. split; [lia|]. right. left. split; [assumption|]. split; [assumption|]. destruct (Z.eq_dec (py (s_p0 a)) (py (s_p0 b))); [right; tauto|left; lia].
        -- intros [H1|[_ [[_ H1]|[[_ [_ [H1|[H1 _]]]]|[H1 _]]]]]; try lia; tauto.
      * assert (~ vertical_site b) by (intros Q; apply VB in Q; discriminate). split; [intros _; right; split; [lia|]; left; tauto|reflexivity].
    + specialize (PB SB). eexists. split; [reflexivity|]. split.
      * intros H1. right. split; [lia|]. right. left. split; [assumption|]. split; [assumption|]. left. lia.
      * intros [H1|[_ [[_ H1]|[[_ [_ [H1|[_ [_ H1]]]]]|[H1 _]]]]]; try lia; tauto.
Qed.
(* two sites the order does not tell apart *)
Definition same_place (a b : site) : Prop :=
  s_p0 a = s_p0 b /\
  ( is_point a /\ is_point b \/ (vertical_site a /\ ~ is_point a) /\ (vertical_site b /\ ~ is_point b) \/
    ~ vertical_site a /\ ~ vertical_site b /\ det3 (s_p0 a) (s_p1 a) (s_p1 b) = 0).
Lemma is_point_dec a : is_point a \/ ~ is_point a.
Proof. destruct (is_segment a) eqn:E; [right; apply is_segment_spec; exact E|left; apply is_segment_false; exact E]. Qed.
Lemma vertical_dec a : vertical_site a \/ ~ vertical_site a.
Proof. unfold vertical_site. lia. Qed.
Lemma site_before_trichotomy a b : site_before a b \/ site_before b a \/ same_place a b.
Proof.
  unfold site_before, same_place.
  destruct (Z.lt_total (px (s_p0 a)) (px (s_p0 b))) as [X|[X|X]]; [left; left; exact X| |right; left; left; exact X].
  destruct (Z.lt_total (py (s_p0 a)) (py (s_p0 b))) as [Y|[Y|Y]].
  - destruct (vertical_dec a), (vertical_dec b); [left|left|right; left|left]; right; (split; [lia|]); tauto.
  - assert (E0 : s_p0 a = s_p0 b) by (apply pt_ext; lia).
    destruct (vertical_dec a) as [VA|VA], (vertical_dec b) as [VB|VB].
    + destruct (is_point_dec a), (is_point_dec b); [right; right|left|right; left|right; right]; try (split; [exact E0|tauto]); right; (split; [lia|]); right; left; repeat split; try assumption; right; split; try lia; split; assumption.
    + left. right. split; [lia|]. tauto.
    + right. left. right. split; [lia|]. tauto.
    + assert (D : det3 (s_p0 b) (s_p1 b) (s_p1 a) = - det3 (s_p0 a) (s_p1 a) (s_p1 b)) by (rewrite <- E0; unfold det3; ring).
      destruct (Z.lt_total (det3 (s_p0 a) (s_p1 a) (s_p1 b)) 0) as [S|[S|S]].
      * left. right. split; [lia|]. right. right. split; [assumption|]. split; [assumption|]. right. split; [lia|exact S].
      * right. right. split; [exact E0|]. tauto.
      * right. left. right. split; [lia|]. right. right. split; [assumption|]. split; [assumption|]. right. split; [lia|]. lia.
  - destruct (vertical_dec a), (vertical_dec b); [right; left|left|right; left|right; left]; right; (split; [lia|]); tauto.
Qed.
Lemma det3_trans (p q r s : point) : px p < px q -> px p < px r -> px p < px s ->
  (det3 p q r < 0 -> det3 p r s < 0 -> det3 p q s < 0) /\ (det3 p q r = 0 -> det3 p r s = 0 -> det3 p q s = 0) /\
  (det3 p q r = 0 -> det3 p r s < 0 -> det3 p q s < 0) /\ (det3 p q r < 0 -> det3 p r s = 0 -> det3 p q s < 0).
Proof.
  intros Q R S. assert (I : (px r - px p) * det3 p q s = (px s - px p) * det3 p q r + (px q - px p) * det3 p r s) by (unfold det3; ring).
  set (a := det3 p q s) in *. set (b := det3 p q r) in *. set (c := det3 p r s) in *. clearbody a b c. repeat split; intros; nia.
Qed.
Lemma site_before_asym a b : site_before a b -> site_before b a -> False.
Proof.
  unfold site_before. intros [A|[A A']] [B|[B B']]; try lia.
  destruct A' as [[A1 A2]|[[A1 [A2 A3]]|[A1 [A2 A3]]]], B' as [[B1 B2]|[[B1 [B2 B3]]|[B1 [B2 B3]]]]; try tauto.
  - destruct A3 as [A3|[A3 [A4 A5]]], B3 as [B3|[B3 [B4 B5]]]; try lia; tauto.
  - destruct A3 as [A3|[A3 A4]], B3 as [B3|[B3 B4]]; try lia.
    assert (E0 : s_p0 a = s_p0 b) by (apply pt_ext; lia). rewrite <- E0 in B4.
    assert (det3 (s_p0 a) (s_p1 b) (s_p1 a) = - det3 (s_p0 a) (s_p1 a) (s_p1 b)) by (unfold det3; ring). lia.
Qed.
Lemma nonvertical_right s : site_ok s -> ~ vertical_site s -> px (s_p0 s) < px (s_p1 s).
Proof. intros [_ [_ [P|[L|[L _]]]]] N; [exfalso; apply N, point_vertical, P|exact L|exfalso; apply N; exact L]. Qed.
Lemma site_before_trans a b c : site_ok a -> site_ok b -> site_ok c -> site_before a b -> site_before b c -> site_before a c.
Proof.
  intros OA OB OC. unfold site_before. intros [A|[A A']] [B|[B B']]; try (left; lia). right. split; [lia|].
  destruct A' as [[A1 A2]|[[A1 [A2 A3]]|[A1 [A2 A3]]]], B' as [[B1 B2]|[[B1 [B2 B3]]|[B1 [B2 B3]]]]; try tauto.
  - right. left. split; [assumption|]. split; [assumption|]. destruct A3 as [A3|[A3 [A4 A5]]], B3 as [B3|[B3 [B4 B5]]]; try (left; lia). right. split; [lia|]. tauto.
  - right. right. split; [assumption|]. split; [assumption|]. destruct A3 as [A3|[A3 A4]], B3 as [B3|[B3 B4]]; try (left; lia). right. split; [lia|].
    pose proof (nonvertical_right a OA A1). pose proof (nonvertical_right b OB A2). pose proof (nonvertical_right c OC B2).
    assert (E0 := p0_eq a b A A3). assert (E1 := p0_eq b c B B3). rewrite <- E1 in *. rewrite <- E0 in *.
    destruct (det3_trans (s_p0 a) (s_p1 a) (s_p1 b) (s_p1 c)) as [T _]; try assumption. apply T; assumption.
Qed.
Lemma same_place_incomparable a b : same_place a b <-> ~ site_before a b /\ ~ site_before b a.
Proof.
  split.
  - intros [E H]. assert (EX : px (s_p0 a) = px (s_p0 b)) by congruence. assert (EY : py (s_p0 a) = py (s_p0 b)) by congruence.
    assert (D : det3 (s_p0 b) (s_p1 b) (s_p1 a) = - det3 (s_p0 a) (s_p1 a) (s_p1 b)) by (rewrite <- E; unfold det3; ring).
    pose proof (point_vertical a) as PVa. pose proof (point_vertical b) as PVb.
    split; intros [Q|[_ [[Q1 Q2]|[[Q1 [Q2 [Q3|[Q3 [Q4 Q5]]]]]|[Q1 [Q2 [Q3|[Q3 Q4]]]]]]]]; try lia; destruct H as [[H1 H2]|[[[H1 H2] [H3 H4]]|[H1 [H2 H3]]]]; try tauto; lia.
  - intros [N1 N2]. destruct (site_before_trichotomy a b) as [H|[H|H]]; tauto.
Qed.
Lemma same_place_trans a b c : site_ok a -> site_ok b -> site_ok c -> same_place a b -> same_place b c -> same_place a c.
Proof.
  intros OA OB OC [E H] [E' H']. split; [congruence|].
  destruct H as [[H1 H2]|[[[H1 H2] [H3 H4]]|[H1 [H2 H3]]]], H' as [[K1 K2]|[[[K1 K2] [K3 K4]]|[K1 [K2 K3]]]]; try tauto.
  - exfalso. apply K1, point_vertical, H2.
  - exfalso. apply H2, point_vertical, K1.
  - right. right. split; [assumption|]. split; [assumption|].
    pose proof (nonvertical_right a OA H1). pose proof (nonvertical_right b OB H2). pose proof (nonvertical_right c OC K2).
    rewrite <- E' in *. rewrite <- E in *. destruct (det3_trans (s_p0 a) (s_p1 a) (s_p1 b) (s_p1 c)) as [_ [T _]]; try assumption. apply T; assumption.
Qed.
(* ---------- the sites of the input ---------- *)
Lemma point_before_spec p q : point_before p q = true <-> lex_before p q.
Proof. unfold point_before, lex_before. destruct (px p =? px q) eqn:E; lia. Qed.
Lemma insert_segment_ok p q : pt_int p -> pt_int q -> Forall site_ok (insert_segment p q).
Proof.
  intros P Q. unfold insert_segment. constructor; [split; [exact P|]; split; [exact P|left; reflexivity]|]. constructor; [split; [exact Q|]; split; [exact Q|left; reflexivity]|].
  constructor; [|constructor]. split; [destruct (point_before p q); assumption|]. split; [destruct (point_before p q); assumption|].
  destruct (point_before p q) eqn:E; cbn [s_p0 s_p1]; [right; apply point_before_spec; exact E|].
  destruct (is_point_dec (mk_site q p)) as [H|H]; [left; exact H|right]. unfold is_point in H. cbn [s_p0 s_p1] in *. unfold lex_before. unfold point_before in E.
    destruct (px p =? px q) eqn:EX; [|lia]. right. split; [lia|]. assert (py q <> py p). { intros EY. apply H. apply pt_ext; lia. } lia.
Qed.
Lemma site_eqb_spec a b : site_eqb a b = true <-> a = b.
Proof. unfold site_eqb. rewrite andb_true_iff, !pt_eqb_spec. destruct a as [a0 a1], b as [b0 b1]; cbn [s_p0 s_p1]. split; [intros [-> ->]; reflexivity|intros H; injection H; auto]. Qed.
Definition site_le (a b : site) : Prop := ~ site_before b a.
Lemma unique_from_in l : forall a x, In x (unique_from a l) <-> In x (a :: l).
Proof.
  induction l as [|b l IH]; intros a x; cbn [unique_from]; [reflexivity|]. destruct (site_eqb a b) eqn:E.
  - apply site_eqb_spec in E. subst b. rewrite IH. cbn [In]. tauto.
  - cbn [In]. rewrite IH. cbn [In]. tauto.
Qed.
Lemma unique_from_sorted l : forall a, Forall site_ok (a :: l) -> (forall x y, In x (a :: l) -> In y (a :: l) -> no_overlap x y) -> StronglySorted site_le (a :: l) ->
  StronglySorted site_before (unique_from a l).
Proof.
  assert (EQ : forall a b, no_overlap a b -> same_place a b -> is_point a \/ ~ is_point a -> a = b).
  { intros a b NO [E H] PD. destruct H as [[H1 H2]|[[[H1 H2] [H3 H4]]|[H1 [H2 H3]]]].
    - unfold is_point in *. destruct a as [a0 a1], b as [b0 b1]; cbn [s_p0 s_p1] in *. congruence.
    - apply NO; try assumption. unfold vertical_site, det3 in *. rewrite <- E in H3. replace (px (s_p1 a)) with (px (s_p0 a)) by congruence. replace (px (s_p1 b)) with (px (s_p0 a)) by congruence. ring.
    - apply NO; try assumption; intros Q; apply point_vertical in Q; tauto. }
  induction l as [|b l IH]; intros a OK NO S; cbn [unique_from]; [repeat constructor|].
  inversion S as [|x y S' F]; subst. destruct (site_eqb a b) eqn:E.
  - apply IH.
    + inversion OK as [|x y O1 O2]; subst. inversion O2; subst. constructor; assumption.
    + intros x y X Y. apply NO; cbn [In] in *; tauto.
    + inversion S'; subst. inversion F; subst. constructor; assumption.
  - assert (NE : a <> b) by (intros Q; apply site_eqb_spec in Q; congruence).
    assert (OA := Forall_inv OK). assert (OL := Forall_inv_tail OK). constructor.
    + apply IH; [exact OL| |exact S']. intros x y X Y. apply NO; right; assumption.
    + apply Forall_forall. intros x X. apply unique_from_in in X. assert (OX := proj1 (Forall_forall _ _) OL x X).
      assert (LX : site_le a x) by (exact (proj1 (Forall_forall _ _) F x X)).
      destruct (site_before_trichotomy a x) as [H|[H|H]]; [exact H|contradiction|exfalso].
      (* x = a would come after b, which is strictly after a *)
      assert (x = a) by (symmetry; apply EQ; [apply NO; [left; reflexivity|right; exact X]|exact H|apply is_point_dec]). subst x. destruct X as [X|X]; [congruence|].
      assert (AB : site_before a b). { destruct (site_before_trichotomy a b) as [Q|[Q|Q]]; [exact Q|exfalso; exact (Forall_inv F Q)|exfalso; apply NE, EQ; [apply NO; cbn [In]; tauto|exact Q|apply is_point_dec]]. }
      inversion S' as [|u v S'' F']; subst. exact (proj1 (Forall_forall _ _) F' a X AB).
Qed.
Lemma sorted_nodup l : StronglySorted site_before l -> NoDup l.
Proof.
  induction 1 as [|a l S IH F]; constructor; [|exact IH]. intros I. pose proof (proj1 (Forall_forall _ _) F a I) as Q. exact (site_before_asym a a Q Q).
Qed.
