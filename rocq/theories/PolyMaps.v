(* How the even-odd inside of a cycle behaves under maps of the plane. *)
From Verif Require Import Base Units Outcome Scan90Spec Poly90Spec Poly90Model Poly90Proofs PolyCycle.
From Verif Require Import Set90Spec Set90Model GeoSpec IvlModel IvlProofs RectModel RectProofs SegModel SegProofs PolySpec PolyModel PolyArea PolyEdge PolyContains.

Definition keeps (f : point -> point) : Prop :=
  (forall a b p, on_edge (f a, f b) (f p) <-> on_edge (a, b) p) /\
  (forall l p, ~ on_curve l p -> Z.odd (edges_below (map f l) (f p)) = Z.odd (edges_below l p)).
Lemma on_curve_map f l p : (forall a b, on_edge (f a, f b) (f p) <-> on_edge (a, b) p) -> (on_curve (map f l) (f p) <-> on_curve l p).
Proof.
  intros H. unfold on_curve. rewrite cyc_map. split.
  - intros [e [I O]]. apply in_map_iff in I. destruct I as [[a b] [<- I]]. cbn [fst snd] in O. exists (a, b). split; [exact I|]. apply H. exact O.
  - intros [[a b] [I O]]. exists (f a, f b). split; [apply in_map_iff; exists (a, b); split; [reflexivity|exact I]|]. apply H. exact O.
Qed.
Lemma keeps_comp f g : keeps f -> keeps g -> keeps (fun p => g (f p)).
Proof.
  intros [F1 F2] [G1 G2]. split; [intros a b p; rewrite G1; apply F1|]. intros l p N.
  rewrite <- (map_map f g). rewrite G2; [apply F2; exact N|]. rewrite on_curve_map; [exact N|]. intros a b. apply F1.
Qed.
Lemma keeps_ext f g : (forall p, f p = g p) -> keeps f -> keeps g.
Proof. intros E [F1 F2]. split; [intros a b p; rewrite <- !E; apply F1|]. intros l p N. rewrite <- (map_ext f g E), <- E. apply F2. exact N. Qed.
(* it suffices to look at one edge at a time, up to a function of its ends *)
Lemma keeps_edge f (h : point -> point -> bool) :
  (forall a b p, on_edge (f a, f b) (f p) <-> on_edge (a, b) p) ->
  (forall a b p, ~ on_edge (a, b) p -> xorb (below (f p) (f a, f b)) (below p (a, b)) = xorb (h p a) (h p b)) -> keeps f.
Proof.
  intros O B. split; [exact O|]. intros l p N.
  assert (E : Z.odd (edges_below (map f l) (f p) - edges_below l p) = false).
  { change false with (Z.odd 0). rewrite <- (f_equal Z.odd (cyc_telescope (fun v => b2z (h p v)) l)).
    unfold edges_below, count_if, Z.sub at 1. rewrite cyc_map, zsum_map, <- zsum_opp, <- zsum_add. apply odd_sum_ext. intros [a b] I. cbn [fst snd].
    assert (NO : ~ on_edge (a, b) p) by (intros X; apply N; exists (a, b); split; assumption). specialize (B a b p NO).
    unfold b2z. destruct (below (f p) (f a, f b)), (below p (a, b)), (h p a), (h p b); cbn in B |- *; try reflexivity; discriminate. }
  rewrite odd_sub in E. destruct (Z.odd (edges_below (map f l) (f p))), (Z.odd (edges_below l p)); cbn in E; congruence.
Qed.
(* ... and at edges that go to the right or are vertical *)
Lemma keeps_right f (h : point -> point -> bool) :
  (forall a b p, on_edge (f a, f b) (f p) <-> on_edge (a, b) p) ->
  (forall a b p, px a <= px b -> ~ on_edge (a, b) p -> xorb (below (f p) (f a, f b)) (below p (a, b)) = xorb (h p a) (h p b)) -> keeps f.
Proof.
  intros O B. apply (keeps_edge f h); [exact O|]. intros a b p N. destruct (Z_le_gt_dec (px a) (px b)) as [L|L]; [apply B; assumption|].
  rewrite <- (below_swap (f p) (f a, f b)), <- (below_swap p (a, b)), (xorb_comm (h p a)). unfold swap_edge; cbn [fst snd]. apply B; [lia|]. rewrite on_edge_sym. exact N.
Qed.

Definition flip_x (p : point) : point := mk_pt (- px p) (py p).
Definition flip_y (p : point) : point := mk_pt (px p) (- py p).
Definition swap_xy (p : point) : point := mk_pt (py p) (px p).
Definition shift_by (d p : point) : point := mk_pt (px p + px d) (py p + py d).
Definition times (k : Z) (p : point) : point := mk_pt (px p * k) (py p * k).

Lemma keeps_id : keeps (fun p => p).
Proof. split; [tauto|]. intros l p N. rewrite map_id. reflexivity. Qed.
Lemma keeps_flip_x : keeps flip_x.
Proof.
  apply (keeps_right flip_x (fun p v => (px v =? px p) && (py v <? py p))).
  - intros a b p. rewrite !on_edge_box, !sd_eq. unfold flip_x. cbn [px py]. lia.
  - intros a b p L. rewrite on_edge_box, sd_eq. unfold flip_x. rewrite !below_eq. cbn [px py]. rewrite !sd_eq. cbn [px py]. destruct (Z.eq_dec (px a) (px b)) as [V|V].
    + rewrite <- V, !Z.min_id, !Z.max_id.
      replace ((- px a <=? - px p) && (- px p <? - px a)) with false by lia. replace ((px a <=? px p) && (px p <? px a)) with false by lia. cbn [andb xorb].
      destruct (Z.eqb_spec (px a) (px p)) as [E|E]; [|reflexivity]. cbn [andb]. rewrite E. intros N.
      destruct (Z.ltb_spec (py a) (py p)), (Z.ltb_spec (py b) (py p)); try reflexivity; exfalso; apply N; (split; [ring|lia]).
    + assert (V' : px a < px b) by lia. rewrite (Z.min_r (- px a)), (Z.max_l (- px a)) by lia. rewrite (Z.min_l (px a)), (Z.max_r (px a)) by lia.
      replace (- px a <? - px b) with false by lia. replace (px a <? px b) with true by lia.
      replace ((- px a - - px b) * (py p - py b) - (py a - py b) * (- px p - - px b)) with ((px b - px a) * (py p - py a) - (py b - py a) * (px p - px a)) by ring.
      set (s := (px b - px a) * (py p - py a) - (py b - py a) * (px p - px a)). intros N.
      replace (- px b <=? - px p) with (px p <=? px b) by lia. replace (- px p <? - px a) with (px a <? px p) by lia.
      destruct (Z.eqb_spec (px a) (px p)) as [Ea|Ea].
      * replace (px b =? px p) with false by lia. cbn [andb]. replace (px a <? px p) with false by lia. replace (px a <=? px p) with true by lia. replace (px p <? px b) with true by lia.
        rewrite andb_false_r. cbn [andb]. rewrite xorb_false_l, xorb_false_r. unfold s. rewrite Ea. assert (0 < px b - px p) by lia.
        destruct (Z.ltb_spec (py a) (py p)), (Z.ltb_spec 0 ((px b - px p) * (py p - py a) - (py b - py a) * (px p - px p))); try reflexivity; nia.
      * cbn [andb]. destruct (Z.eqb_spec (px b) (px p)) as [Eb|Eb]; cbn [andb]; rewrite xorb_false_l.
        -- replace (px p <=? px b) with true by lia. replace (px a <? px p) with true by lia. replace (px p <? px b) with false by lia.
           rewrite andb_false_r. cbn [andb]. rewrite xorb_false_r. unfold s. rewrite Eb. assert (0 < px p - px a) by lia.
           destruct (Z.ltb_spec (py b) (py p)), (Z.ltb_spec 0 ((px p - px a) * (py p - py a) - (py b - py a) * (px p - px a))); try reflexivity; nia.
        -- replace (px a <? px p) with (px a <=? px p) by lia. replace (px p <=? px b) with (px p <? px b) by lia. rewrite (andb_comm (px p <? px b)). apply xorb_nilpotent.
Qed.
Lemma keeps_flip_y : keeps flip_y.
Proof.
  split; [intros a b p; rewrite !on_edge_box, !sd_eq; unfold flip_y; cbn [px py]; lia|].
  intros l p N. rewrite <- (above_below l p N). unfold edges_below, edges_above, count_if. rewrite cyc_map, zsum_map. apply odd_sum_ext. intros [a b] I. cbn [fst snd].
  rewrite below_eq, above_eq, !sd_eq. unfold flip_y. cbn [px py].
  replace ((px b - px a) * (- py p - - py a) - (- py b - - py a) * (px p - px a)) with (- ((px b - px a) * (py p - py a) - (py b - py a) * (px p - px a))) by ring.
  replace ((px a - px b) * (- py p - - py b) - (- py a - - py b) * (px p - px b)) with (- ((px a - px b) * (py p - py b) - (py a - py b) * (px p - px b))) by ring.
  set (s := (px b - px a) * (py p - py a) - (py b - py a) * (px p - px a)). set (t := (px a - px b) * (py p - py b) - (py a - py b) * (px p - px b)).
  f_equal. destruct (px a <? px b).
  - replace (0 <? - s) with (s <? 0) by lia. reflexivity.
  - replace (0 <? - t) with (t <? 0) by lia. reflexivity.
Qed.
Lemma keeps_shift d : keeps (shift_by d).
Proof.
  apply (keeps_edge _ (fun _ _ => false)).
  - intros a b p. rewrite !on_edge_box, !sd_eq. unfold shift_by. cbn [px py].
    replace ((px b + px d - (px a + px d)) * (py p + py d - (py a + py d)) - (py b + py d - (py a + py d)) * (px p + px d - (px a + px d))) with
      ((px b - px a) * (py p - py a) - (py b - py a) * (px p - px a)) by ring. lia.
  - intros a b p _. rewrite !below_eq, !sd_eq. unfold shift_by. cbn [px py].
    replace ((px b + px d - (px a + px d)) * (py p + py d - (py a + py d)) - (py b + py d - (py a + py d)) * (px p + px d - (px a + px d))) with
      ((px b - px a) * (py p - py a) - (py b - py a) * (px p - px a)) by ring.
    replace ((px a + px d - (px b + px d)) * (py p + py d - (py b + py d)) - (py a + py d - (py b + py d)) * (px p + px d - (px b + px d))) with
      ((px a - px b) * (py p - py b) - (py a - py b) * (px p - px b)) by ring.
    replace (px a + px d <? px b + px d) with (px a <? px b) by lia.
    replace (Z.min (px a + px d) (px b + px d) <=? px p + px d) with (Z.min (px a) (px b) <=? px p) by lia.
    replace (px p + px d <? Z.max (px a + px d) (px b + px d)) with (px p <? Z.max (px a) (px b)) by lia. apply xorb_nilpotent.
Qed.
Lemma ltb_scale k a b : 0 < k -> (a * k <? b * k) = (a <? b).
Proof. intros K. destruct (Z.ltb_spec a b), (Z.ltb_spec (a * k) (b * k)); try reflexivity; nia. Qed.
Lemma leb_scale k a b : 0 < k -> (a * k <=? b * k) = (a <=? b).
Proof. intros K. destruct (Z.leb_spec a b), (Z.leb_spec (a * k) (b * k)); try reflexivity; nia. Qed.
Lemma keeps_times k : 0 < k -> keeps (times k).
Proof.
  intros K. apply (keeps_edge _ (fun _ _ => false)).
  - intros a b p. rewrite !on_edge_box, !sd_eq. unfold times. cbn [px py].
    replace ((px b * k - px a * k) * (py p * k - py a * k) - (py b * k - py a * k) * (px p * k - px a * k)) with
      (((px b - px a) * (py p - py a) - (py b - py a) * (px p - px a)) * (k * k)) by ring.
    rewrite !Z.mul_min_distr_nonneg_r, !Z.mul_max_distr_nonneg_r by lia. rewrite <- !Z.mul_le_mono_pos_r by lia. rewrite Z.mul_eq_0. assert (k * k <> 0) by nia. tauto.
  - intros a b p _. rewrite !below_eq, !sd_eq. unfold times. cbn [px py].
    replace ((px b * k - px a * k) * (py p * k - py a * k) - (py b * k - py a * k) * (px p * k - px a * k)) with
      (((px b - px a) * (py p - py a) - (py b - py a) * (px p - px a)) * (k * k)) by ring.
    replace ((px a * k - px b * k) * (py p * k - py b * k) - (py a * k - py b * k) * (px p * k - px b * k)) with
      (((px a - px b) * (py p - py b) - (py a - py b) * (px p - px b)) * (k * k)) by ring.
    rewrite !Z.mul_min_distr_nonneg_r, !Z.mul_max_distr_nonneg_r by lia. rewrite !leb_scale, !ltb_scale by lia.
    set (s := (px b - px a) * (py p - py a) - (py b - py a) * (px p - px a)). set (t := (px a - px b) * (py p - py b) - (py a - py b) * (px p - px b)).
    replace (0 <? (if px a <? px b then s * (k * k) else t * (k * k))) with (0 <? (if px a <? px b then s else t)); [apply xorb_nilpotent|].
    destruct (px a <? px b).
    + rewrite <- (ltb_scale (k * k) 0 s) by nia. reflexivity.
    + rewrite <- (ltb_scale (k * k) 0 t) by nia. reflexivity.
Qed.
Lemma keeps_swap : keeps swap_xy.
Proof.
  apply (keeps_right swap_xy (fun p v => (px v <=? px p) && (py v <=? py p))).
  - intros a b p. rewrite !on_edge_box, !sd_eq. unfold swap_xy. cbn [px py]. lia.
  - intros [a1 a2] [b1 b2] [x y] L. rewrite on_edge_box, sd_eq. unfold swap_xy. cbn [px py] in *. rewrite !below_eq, !sd_eq. cbn [px py].
    replace ((b2 - a2) * (x - a1) - (b1 - a1) * (y - a2)) with (- ((b1 - a1) * (y - a2) - (b2 - a2) * (x - a1))) by ring.
    replace ((a2 - b2) * (x - b1) - (a1 - b1) * (y - b2)) with ((b1 - a1) * (y - a2) - (b2 - a2) * (x - a1)) by ring.
    remember ((b1 - a1) * (y - a2) - (b2 - a2) * (x - a1)) as s eqn:HS. intros N. destruct (Z.eq_dec a1 b1) as [V|V].
    + subst b1. rewrite Z.min_id, Z.max_id. replace ((a1 <=? x) && (x <? a1)) with false by lia. cbn [andb]. rewrite xorb_false_r.
      assert (S0 : s = - ((b2 - a2) * (x - a1))) by (subst s; ring). clear HS.
      destruct (Z.lt_trichotomy x a1) as [X|[X|X]].
      * replace (a1 <=? x) with false by lia. cbn [andb xorb]. destruct (Z.ltb_spec a2 b2).
        -- replace (0 <? - s) with false; [apply andb_false_r|]. symmetry. apply Z.ltb_ge. nia.
        -- replace (0 <? s) with false; [apply andb_false_r|]. symmetry. apply Z.ltb_ge. nia.
      * subst a1. rewrite Z.sub_diag, Z.mul_0_r in S0. cbn in S0. subst s. replace (x <=? x) with true by lia. cbn [andb].
        replace (0 <? (if a2 <? b2 then - 0 else 0)) with false by (destruct (a2 <? b2); reflexivity). rewrite andb_false_r.
        destruct (Z.leb_spec a2 y), (Z.leb_spec b2 y); try reflexivity; exfalso; apply N; (split; [reflexivity|lia]).
      * replace (a1 <=? x) with true by lia. cbn [andb]. destruct (Z.lt_trichotomy a2 b2) as [Y|[Y|Y]].
        -- replace (a2 <? b2) with true by lia. replace (0 <? - s) with true by (symmetry; apply Z.ltb_lt; nia). rewrite andb_true_r, Z.min_l, Z.max_r by lia.
           destruct (Z.leb_spec a2 y), (Z.leb_spec b2 y), (Z.ltb_spec y b2); cbn; try reflexivity; lia.
        -- subst b2. rewrite Z.min_id, Z.max_id. replace ((a2 <=? y) && (y <? a2)) with false by lia. cbn [andb]. rewrite xorb_nilpotent. reflexivity.
        -- replace (a2 <? b2) with false by lia. replace (0 <? s) with true by (symmetry; apply Z.ltb_lt; nia). rewrite andb_true_r, Z.min_r, Z.max_l by lia.
           destruct (Z.leb_spec a2 y), (Z.leb_spec b2 y), (Z.ltb_spec y a2); cbn; try reflexivity; lia.
    + assert (V' : a1 < b1) by lia. replace (a1 <? b1) with true by lia. rewrite (Z.min_l a1 b1), (Z.max_r a1 b1) by lia.
      rewrite (Z.min_l a1 b1), (Z.max_r a1 b1) in N by lia.
      destruct (Z.lt_trichotomy a2 b2) as [Y|[Y|Y]].
      * replace (a2 <? b2) with true by lia. rewrite (Z.min_l a2 b2), (Z.max_r a2 b2) by lia. rewrite (Z.min_l a2 b2), (Z.max_r a2 b2) in N by lia.
        destruct (Z.leb_spec a2 y), (Z.ltb_spec y b2), (Z.leb_spec a1 x), (Z.ltb_spec x b1), (Z.leb_spec b1 x), (Z.leb_spec b2 y), (Z.ltb_spec 0 s), (Z.ltb_spec 0 (- s)); cbn; try reflexivity; try lia; exfalso; try nia; apply N; nia.
      * subst b2. rewrite Z.min_id, Z.max_id. rewrite Z.min_id, Z.max_id in N. replace ((a2 <=? y) && (y <? a2)) with false by lia. cbn [andb]. rewrite xorb_false_l.
        assert (S0 : s = (b1 - a1) * (y - a2)) by (subst s; ring). clear HS.
        destruct (Z.leb_spec a2 y), (Z.leb_spec a1 x), (Z.ltb_spec x b1), (Z.leb_spec b1 x), (Z.ltb_spec 0 s); cbn; try reflexivity; try lia; exfalso; try nia; apply N; nia.
      * replace (a2 <? b2) with false by lia. rewrite (Z.min_r a2 b2), (Z.max_l a2 b2) by lia. rewrite (Z.min_r a2 b2), (Z.max_l a2 b2) in N by lia.
        destruct (Z.leb_spec a2 y), (Z.ltb_spec y a2), (Z.leb_spec a1 x), (Z.ltb_spec x b1), (Z.leb_spec b1 x), (Z.leb_spec b2 y), (Z.ltb_spec 0 s); cbn; try reflexivity; try lia; exfalso; try nia; apply N; nia.
Qed.
