(* C36-C38, C44: ULP comparison, orientation, order of the site events. *)
From Coq Require Import Sorting.Permutation Sorting.Sorted.
From Verif Require Import Base Scan90Spec Set90Spec Set90Model GeoSpec IvlModel RectModel XIntSpec XIntModel VorSpec VorModel VorProofs.

(* ---------- C36: ULP comparison ---------- *)
(* fval is the value of a bit pattern in units of 2^-1074 (VorSpec.v) *)
Theorem C36_antisymmetric : forall a b u, finite a -> finite b -> 0 <= u -> ulp_comparison b a u = - ulp_comparison a b u.
Proof.
  intros a b u Fa Fb U. rewrite !ulp_spec by assumption. rewrite <- (Z.abs_opp (key b - key a)). replace (- (key b - key a)) with (key a - key b) by ring.
  destruct (Z.abs (key a - key b) <=? u); [reflexivity|]. rewrite <- Z.sgn_opp. f_equal. ring.
Qed.
Theorem C36_less : forall a b u, finite a -> finite b -> 0 <= u ->
  (ulp_comparison a b u = -1 -> fval a < fval b) /\ (ulp_comparison a b u = 1 -> fval b < fval a).
Proof.
  intros a b u Fa Fb U. rewrite ulp_spec by assumption. rewrite (fval_lt_key a b Fa Fb), (fval_lt_key b a Fb Fa). destruct (Z.abs (key a - key b) <=? u); [lia|]. lia.
Qed.
(* l lists the doubles in (a, b], or in (b, a] *)
Theorem C36_equal : forall a b u, finite a -> finite b -> 0 <= u ->
  exists l, NoDup l /\ (forall v, In v l <-> representable v /\ Z.min (fval a) (fval b) < v <= Z.max (fval a) (fval b)) /\
    (ulp_comparison a b u = 0 <-> Z.of_nat (length l) <= u).
Proof.
  intros a b u Fa Fb U. rewrite ulp_spec by assumption. pose proof (fval_lt_key a b Fa Fb) as L1. pose proof (fval_lt_key b a Fb Fa) as L2.
  destruct (Z.leb_spec (key a) (key b)) as [L|L].
  - destruct (doubles_between a b Fa Fb L) as [l [N [I E]]]. exists l. split; [exact N|]. split; [intros v; rewrite I; rewrite Z.min_l, Z.max_r by lia; reflexivity|]. rewrite E. destruct (Z.abs (key a - key b) <=? u) eqn:Q; lia.
  - destruct (doubles_between b a Fb Fa ltac:(lia)) as [l [N [I E]]]. exists l. split; [exact N|]. split; [intros v; rewrite I; rewrite Z.min_r, Z.max_l by lia; reflexivity|]. rewrite E. destruct (Z.abs (key a - key b) <=? u) eqn:Q; lia.
Qed.
(* with no tolerance it is the comparison of the values *)
Theorem C36_exact : forall a b, finite a -> finite b -> ulp_comparison a b 0 = Z.sgn (fval a - fval b).
Proof.
  intros a b Fa Fb. rewrite ulp_spec by (assumption || lia). pose proof (fval_lt_key a b Fa Fb) as L1. pose proof (fval_lt_key b a Fb Fa) as L2.
  destruct (Z.abs (key a - key b) <=? 0) eqn:Q; lia.
Qed.
(* 1.0 and its successor, the two zeros, the smallest doubles of both signs *)
Example C36_hypotheses :
  let one := 1023 * 2 ^ 52 in finite one /\ fval one = 2 ^ 1074 /\ finite (2 ^ 63 + 1) /\ fval (2 ^ 63 + 1) = -1 /\
  ulp_comparison one (one + 1) 0 = -1 /\ ulp_comparison one (one + 1) 1 = 0 /\ ulp_comparison 0 (2 ^ 63) 0 = 0 /\
  ulp_comparison 1 (2 ^ 63 + 1) 1 = 1 /\ ulp_comparison 1 (2 ^ 63 + 1) 2 = 0.
Proof. vm_compute. repeat split; discriminate. Qed.

(* ---------- C37: orientation ---------- *)
Theorem C37_orientation : forall p q r, pt_int p -> pt_int q -> pt_int r -> ot_points p q r = Ok (Z.sgn (det3 p q r)).
Proof. exact ot_points_eq. Qed.
(* the cross product of four differences of ints has the right sign and a relative
   error of at most 2^-53, and is exact below 2^53, provided the result is below 2^64 *)
Theorem C37_cross_product_partial : forall a1 b1 a2 b2,
  Z.abs a1 < 2 ^ 32 -> Z.abs b1 < 2 ^ 32 -> Z.abs a2 < 2 ^ 32 -> Z.abs b2 < 2 ^ 32 -> Z.abs (a1 * b2 - b1 * a2) < 2 ^ 64 ->
  exists v, robust_cross_product a1 b1 a2 b2 = Ok v /\ Z.sgn v = Z.sgn (a1 * b2 - b1 * a2) /\
    Z.abs (v - (a1 * b2 - b1 * a2)) * 2 ^ 53 <= Z.abs (a1 * b2 - b1 * a2) /\
    (Z.abs (a1 * b2 - b1 * a2) < 2 ^ 53 -> v = a1 * b2 - b1 * a2).
Proof. exact robust_cross_spec. Qed.
Theorem C37_four_differences_partial : forall a1 b1 a2 b2,
  Z.abs a1 < 2 ^ 32 -> Z.abs b1 < 2 ^ 32 -> Z.abs a2 < 2 ^ 32 -> Z.abs b2 < 2 ^ 32 -> Z.abs (a1 * b2 - b1 * a2) < 2 ^ 64 ->
  ot_difs a1 b1 a2 b2 = Ok (Z.sgn (a1 * b2 - b1 * a2)).
Proof.
  intros a1 b1 a2 b2 A1 B1 A2 B2 D. destruct (robust_cross_spec a1 b1 a2 b2 A1 B1 A2 B2 D) as [v [E [S _]]]. unfold ot_difs. rewrite E. cbn [obind]. rewrite ot_value_sgn, S. reflexivity.
Qed.
(* in particular when no difference exceeds 2^31 - 1, as for coordinates of at most 2^30 *)
Theorem C37_four_differences_small : forall a1 b1 a2 b2, is_int a1 -> is_int b1 -> is_int a2 -> is_int b2 ->
  ot_difs a1 b1 a2 b2 = Ok (Z.sgn (a1 * b2 - b1 * a2)).
Proof. unfold is_int, INT_MIN, INT_MAX. intros a1 b1 a2 b2 A1 B1 A2 B2. apply C37_four_differences_partial; try lia; nia. Qed.
(* for full-range differences the sum of the products wraps around: collinear is
   reported for vectors that are not *)
Theorem C37_four_differences_refuted : exists x1 y1 x2 y2 x3 y3 x4 y4,
  is_int x1 /\ is_int y1 /\ is_int x2 /\ is_int y2 /\ is_int x3 /\ is_int y3 /\ is_int x4 /\ is_int y4 /\
  0 < (x2 - x1) * (y4 - y3) - (y2 - y1) * (x4 - x3) /\ ot_difs (x2 - x1) (y2 - y1) (x4 - x3) (y4 - y3) = Ok 0.
Proof.
  exists INT_MIN, 0, INT_MAX, (-7), 0, INT_MIN, 1227133513, INT_MAX. vm_compute. repeat split; discriminate.
Qed.
Example C37_hypotheses :
  let p := mk_pt INT_MIN INT_MIN in let q := mk_pt INT_MAX INT_MIN in let r := mk_pt INT_MAX INT_MAX in
  pt_int p /\ pt_int q /\ pt_int r /\ ot_points p q r = Ok 1 /\ ot_points p r q = Ok (-1) /\ ot_points p r (mk_pt 3 3) = Ok 0 /\
  ot_points p r (mk_pt 3 4) = Ok 1.
Proof. vm_compute. repeat split; discriminate. Qed.

(* ---------- C38: order of the site events ---------- *)
Definition less (a b : site) : Prop := site_less a b = Ok true.
Theorem C38_defined : forall a b, site_ok a -> site_ok b -> exists c, site_less a b = Ok c.
Proof. intros a b A B. destruct (site_less_eq a b A B) as [c [E _]]. exists c. exact E. Qed.
Lemma less_before a b : site_ok a -> site_ok b -> (less a b <-> site_before a b).
Proof.
  intros A B. unfold less. destruct (site_less_eq a b A B) as [c [E F]]. rewrite E, <- F. split; [intros H; injection H; auto|intros ->; reflexivity].
Qed.
Theorem C38_irreflexive : forall a, site_ok a -> ~ less a a.
Proof. intros a A H. apply less_before in H; try assumption. exact (site_before_asym a a H H). Qed.
Theorem C38_asymmetric : forall a b, site_ok a -> site_ok b -> less a b -> ~ less b a.
Proof. intros a b A B H K. apply less_before in H, K; try assumption. exact (site_before_asym a b H K). Qed.
Theorem C38_transitive : forall a b c, site_ok a -> site_ok b -> site_ok c -> less a b -> less b c -> less a c.
Proof. intros a b c A B C H K. apply less_before in H, K; try assumption. apply less_before; try assumption. exact (site_before_trans a b c A B C H K). Qed.
Theorem C38_incomparability_transitive : forall a b c, site_ok a -> site_ok b -> site_ok c ->
  ~ less a b -> ~ less b a -> ~ less b c -> ~ less c b -> ~ less a c /\ ~ less c a.
Proof.
  intros a b c A B C H1 H2 H3 H4. rewrite less_before in H1, H2, H3, H4 by assumption. rewrite !less_before by assumption. apply same_place_incomparable. apply (same_place_trans a b c A B C); apply same_place_incomparable; split; assumption.
Qed.
(* what the order means: by start point from left to right; at one abscissa points
   and vertical segments come first, from bottom to top, a point before the
   segments that start there; segments from one point turn clockwise *)
Theorem C38_order_x : forall a b, site_ok a -> site_ok b -> px (s_p0 a) < px (s_p0 b) -> less a b.
Proof. intros a b A B H. apply less_before; try assumption. left. exact H. Qed.
Theorem C38_order_point_first : forall a b, site_ok a -> site_ok b -> is_point a -> ~ is_point b -> s_p0 a = s_p0 b -> less a b.
Proof.
  intros a b A B P N E. apply less_before; try assumption. right. split; [congruence|]. destruct (vertical_dec b) as [V|V].
  - right. left. split; [apply point_vertical; exact P|]. split; [exact V|]. right. split; [congruence|]. split; assumption.
  - left. split; [apply point_vertical; exact P|exact V].
Qed.
Theorem C38_order_points : forall p q, pt_int p -> pt_int q -> (less (mk_site p p) (mk_site q q) <-> lex_before p q).
Proof.
  intros p q P Q. rewrite less_before by (split; [|split; [|left; reflexivity]]; assumption). unfold site_before, vertical_site, is_point, lex_before; cbn [s_p0 s_p1]. split.
  - intros [H|[H [[_ H1]|[[_ [_ [H1|[_ [_ H1]]]]]|[H1 _]]]]]; try congruence; lia.
  - intros [H|[H H']]; [left; lia|right; split; [lia|]; right; left; split; [reflexivity|]; split; [reflexivity|]; left; lia].
Qed.
Theorem C38_order_clockwise : forall a b, site_ok a -> site_ok b -> s_p0 a = s_p0 b -> px (s_p0 a) < px (s_p1 a) -> px (s_p0 b) < px (s_p1 b) ->
  (less a b <-> det3 (s_p0 a) (s_p1 a) (s_p1 b) < 0).
Proof.
  intros a b A B E SA SB. rewrite less_before by assumption. unfold site_before, vertical_site. rewrite E in *. lia.
Qed.
Example C38_hypotheses :
  let o := mk_pt 0 0 in let a := mk_site o o in let b := mk_site o (mk_pt 0 5) in let c := mk_site o (mk_pt 3 5) in let d := mk_site o (mk_pt 6 (-1)) in
  site_ok a /\ site_ok b /\ site_ok c /\ site_ok d /\ less a b /\ less b c /\ less c d.
Proof.
  unfold site_ok, pt_int, is_int, INT_MIN, INT_MAX, is_point, lex_before, less. cbn [s_p0 s_p1 px py].
  repeat split; try lia; try (left; reflexivity); try (right; lia); vm_compute; reflexivity.
Qed.

(* ---------- C44: the queue of site events ---------- *)
(* sites is what std::sort may return: a sorted permutation of the inserted sites *)
Definition sorted_sites (sites : list site) : Prop := StronglySorted (fun a b => ~ less b a) sites.
Theorem C44_inserted_sites : forall p q, pt_int p -> pt_int q ->
  Forall site_ok (insert_point p) /\ Forall site_ok (insert_segment p q) /\
  (forall s, In s (insert_segment p q) <-> s = mk_site p p \/ s = mk_site q q \/ s = (if point_before p q then mk_site p q else mk_site q p)).
Proof.
  intros p q P Q. split; [constructor; [split; [exact P|]; split; [exact P|left; reflexivity]|constructor]|]. split; [apply insert_segment_ok; assumption|].
  intros s. unfold insert_segment. cbn [In]. split; intros [H|[H|H]]; auto; destruct H as [H|H] || idtac; auto; try contradiction.
Qed.
Theorem C44_queue : forall inserted sites, Forall site_ok inserted -> (forall a b, In a inserted -> In b inserted -> no_overlap a b) ->
  Permutation inserted sites -> sorted_sites sites ->
  (forall s, In s (unique_sites sites) <-> In s inserted) /\ NoDup (unique_sites sites) /\ StronglySorted less (unique_sites sites).
Proof.
  intros ins sites OK NO P S. assert (OKS : Forall site_ok sites) by (rewrite Forall_forall in *; intros x X; apply OK, (Permutation_in _ (Permutation_sym P) X)).
  assert (NOS : forall a b, In a sites -> In b sites -> no_overlap a b) by (intros a b A B; apply NO; apply (Permutation_in _ (Permutation_sym P)); assumption).
  assert (IN : forall s, In s (unique_sites sites) <-> In s sites). { intros s. destruct sites as [|a l]; [reflexivity|]. apply unique_from_in. }
  assert (SB : StronglySorted site_before (unique_sites sites)).
  { destruct sites as [|a l]; [constructor|]. apply unique_from_sorted; [exact OKS|exact NOS|]. unfold sorted_sites in S. clear - S OKS. revert S OKS. generalize (a :: l). clear. intros l S. induction S as [|a l S IH F]; intros OKS; constructor.
    - apply IH. exact (Forall_inv_tail OKS).
    - rewrite Forall_forall in *. intros x X. unfold site_le. rewrite <- less_before; [apply F; exact X|apply OKS; right; exact X|apply OKS; left; reflexivity]. }
  split; [intros s; rewrite IN; split; intros H; [apply (Permutation_in _ (Permutation_sym P) H)|apply (Permutation_in _ P H)]|]. split; [apply sorted_nodup; exact SB|].
  assert (OKU : Forall site_ok (unique_sites sites)) by (apply Forall_forall; intros x X; apply IN in X; exact (proj1 (Forall_forall _ _) OKS x X)).
  revert SB OKU. generalize (unique_sites sites). clear. intros l SB. induction SB as [|a l S IH F]; intros OK; constructor.
  - apply IH. exact (Forall_inv_tail OK).
  - rewrite Forall_forall in *. intros x X. apply less_before; [apply OK; left; reflexivity|apply OK; right; exact X|apply F; exact X].
Qed.
(* for segments that overlap, which the documentation excludes, a duplicate can stay *)
Theorem C44_overlap_refuted : exists inserted sites, Forall site_ok inserted /\ Permutation inserted sites /\ sorted_sites sites /\ ~ NoDup (unique_sites sites).
Proof.
  set (a := mk_site (mk_pt 0 0) (mk_pt 0 5)). set (b := mk_site (mk_pt 0 0) (mk_pt 0 7)). exists [a; b; a], [a; b; a].
  split; [|split; [reflexivity|split]].
  - repeat constructor; vm_compute; try discriminate; right; right; split; reflexivity.
  - repeat constructor; vm_compute; discriminate.
  - vm_compute. intros H. inversion H as [|x l N _]. apply N. right. left. reflexivity.
Qed.
Example C44_hypotheses :
  let ins := insert_segment (mk_pt 0 0) (mk_pt 4 1) ++ insert_segment (mk_pt 0 0) (mk_pt 0 3) ++ insert_point (mk_pt 0 0) in
  let o := mk_pt 0 0 in
  let sites := [mk_site o o; mk_site o o; mk_site o o; mk_site o (mk_pt 0 3); mk_site (mk_pt 0 3) (mk_pt 0 3); mk_site o (mk_pt 4 1); mk_site (mk_pt 4 1) (mk_pt 4 1)] in
  sorted_sites sites /\ length (unique_sites sites) = 5%nat /\ length ins = length sites.
Proof. split; [|split; vm_compute; reflexivity]. repeat constructor; vm_compute; discriminate. Qed.

Print Assumptions C36_antisymmetric.
Print Assumptions C36_less.
Print Assumptions C36_equal.
Print Assumptions C36_exact.
Print Assumptions C37_orientation.
Print Assumptions C37_cross_product_partial.
Print Assumptions C37_four_differences_partial.
Print Assumptions C37_four_differences_small.
Print Assumptions C37_four_differences_refuted.
Print Assumptions C38_defined.
Print Assumptions C38_irreflexive.
Print Assumptions C38_asymmetric.
Print Assumptions C38_transitive.
Print Assumptions C38_incomparability_transitive.
Print Assumptions C38_order_x.
Print Assumptions C38_order_point_first.
Print Assumptions C38_order_points.
Print Assumptions C38_order_clockwise.
Print Assumptions C44_inserted_sites.
Print Assumptions C44_queue.
Print Assumptions C44_overlap_refuted.
