(* Proofs about the free functions on Manhattan polygon sets. *)
From Verif Require Import Base Units Outcome Scan90Spec VertexLemmas GeoSpec Poly90Spec PolySpec Poly90Model Poly90Proofs Poly90Vertices Poly90Contains PolyCycle PolyArea
  BoolOpModel Set90Spec Set90Model Set90Lemmas Set90Proofs Set90Cor RectModel RectArith RectDist RectFormSpec RectFormModel RectFormProofs RectFormCor
  PolyModel PolyFormSpec PolyFormModel PolyFormColumns PolyFormCor ResizeSpec ResizePolyModel ResizePolyTotals ResizePolyCor Free90Spec Free90Model.
From Coq Require Import Arith.

(* ---------- assignment ---------- *)
Lemma assign_to_spec target t : ps_ok t -> ps_ok (ps_assign_to target t) /\ ps_orient (ps_assign_to target t) = ps_orient target /\
  forall x y, ps_count (ps_assign_to target t) x y = ps_count t x y.
Proof.
  intros O. unfold ps_assign_to. destruct (ps_insert_range_spec (ps_clear target) (ps_data t) (ps_orient t) (ps_clear_ok _) (ok_closed _ O) (ok_int _ O)) as [A [B [C _]]].
  cbn [ps_clear ps_orient ps_data] in *. split; [exact A|]. split; [exact B|]. intros x y. unfold ps_count. rewrite B, C, wind_nil. lia.
Qed.
Lemma assign_set_count o t : ps_ok t -> ps_ok (ps_assign_set o t) /\ ps_orient (ps_assign_set o t) = o /\ forall x y, ps_count (ps_assign_set o t) x y = ps_count t x y.
Proof. intros O. destruct (ps_assign_set_spec o t O) as [A [B C]]. split; [exact A|]. split; [exact B|]. intros x y. unfold ps_count. rewrite B. apply C. Qed.
Lemma vector_clean_spec t : ps_ok t -> exists s, vector_clean t = Some s /\ ps_ok s /\ ps_orient s = ps_orient t /\ clean_data (ps_data s) /\ forall x y, ps_covers s x y <-> ps_covers t x y.
Proof.
  intros O. unfold vector_clean. destruct (ps_insert_range_spec (ps_new (ps_orient t)) (ps_data t) (ps_orient t) (ps_new_ok _) (ok_closed _ O) (ok_int _ O)) as [A1 [A2 [A3 _]]].
  destruct (clean_is_clean_data _ A1) as [s [E [Os [Eo [CD C]]]]]. exists s. split; [exact E|]. split; [exact Os|]. split; [rewrite Eo; exact A2|]. split; [exact CD|].
  intros x y. rewrite C. unfold ps_covers, ps_count. rewrite A2. cbn [ps_new ps_orient ps_data] in *. rewrite A3, wind_nil. reflexivity.
Qed.
Lemma vector_rects_spec t : ps_ok t -> exists rs, vector_rects t = Some rs /\ tiles rs (ps_covers t).
Proof.
  intros O. destruct (vector_clean_spec t O) as [s [E [Os [Eo [CD C]]]]]. unfold vector_rects. rewrite E. cbn [bind].
  destruct (form_rectangles_spec (ps_orient t) (ps_data s) CD) as [rs [Er [T _]]]. exists rs. split; [exact Er|].
  destruct T as [T1 [T2 T3]]. split; [exact T1|]. split; [exact T2|]. intros x y. rewrite <- C. unfold ps_covers, ps_count. rewrite Eo. apply T3.
Qed.
Lemma sort_sorted s : ps_unsorted (ps_sort s) = false.
Proof. unfold ps_sort. destruct (ps_unsorted s) eqn:K; [reflexivity|exact K]. Qed.
Lemma clean_idem u s : ps_clean u = Some s -> ps_clean s = Some s.
Proof.
  unfold ps_clean at 1. cbv zeta. pose proof (sort_sorted u) as Eu. destruct (ps_dirty (ps_sort u)) eqn:Du.
  - destruct (applyBooleanOr INT_MAX (ps_data (ps_sort u))) as [out|]; [|discriminate]. cbn [bind]. intros E. rewrite Eu in E.
    assert (Es : s = mk_ps (ps_orient (ps_sort u)) out false false) by congruence. rewrite Es. reflexivity.
  - intros E. assert (s = ps_sort u) by congruence. subst s. destruct (ps_sort u) as [o d di un]. cbn [ps_unsorted ps_dirty] in *. subst di un. reflexivity.
Qed.
Lemma vector_polys_spec t : ps_ok t -> exists ps, vector_polys t = Some ps /\ forms ps (ps_covers t) /\ Forall (fun p => p_holes p = []) ps.
Proof.
  intros O. destruct (vector_clean_spec t O) as [s [E [Os [Eo [CD C]]]]]. unfold vector_polys. rewrite E. cbn [bind]. rewrite <- Eo.
  pose proof (ps_get_polygons_spec true s Os) as [ps [s' [Ep [_ [_ [_ [F [G _]]]]]]]]. unfold ps_get_polygons in Ep.
  assert (Cs : ps_clean s = Some s) by (exact (clean_idem _ _ E)).
  rewrite Cs in Ep. cbn [bind] in Ep. destruct (get_polygons true (ps_orient s) (ps_data s)) as [ps1|]; [|discriminate]. cbn [bind] in Ep. assert (ps1 = ps) by congruence. subst ps1.
  exists ps. split; [reflexivity|]. split; [|exact (G eq_refl)]. destruct F as [F1 F2]. split; [exact F1|]. intros x y. rewrite <- C. apply F2.
Qed.

(* ---------- area ---------- *)
Lemma cnt_int V x y : closed V -> (forall v, In v V -> is_int (vx v) /\ is_int (vy v)) -> cnt V x y <> 0 -> INT_MIN <= x < INT_MAX /\ INT_MIN <= y < INT_MAX.
Proof.
  intros [Hc Hr] H N. assert (F : forall (Q : vertex -> Prop), (forall v, In v V -> Q v) -> Forall Q V) by (intros Q K; apply Forall_forall; exact K). unfold is_int in H.
  destruct (Z_le_dec INT_MIN x) as [C1|C1]; [|exfalso; apply N, cnt_left, F; intros v Hv; specialize (H v Hv); lia].
  destruct (Z_lt_dec x INT_MAX) as [C2|C2]; [|exfalso; apply N; rewrite cnt_right by (apply F; intros v Hv; specialize (H v Hv); lia); apply rows_closed_prefix; exact Hr].
  destruct (Z_le_dec INT_MIN y) as [C3|C3]; [|exfalso; apply N, cnt_bottom, F; intros v Hv; specialize (H v Hv); lia].
  destruct (Z_lt_dec y INT_MAX) as [C4|C4]; [|exfalso; apply N; rewrite cnt_top by (apply F; intros v Hv; specialize (H v Hv); lia); apply cols_closed_prefix; exact Hc]. lia.
Qed.
Lemma covers_int s x y : ps_ok s -> ps_covers s x y -> INT_MIN <= x < INT_MAX /\ INT_MIN <= y < INT_MAX.
Proof.
  intros O C. pose proof (ok_int _ O) as D. unfold dint in D. rewrite Forall_forall in D. unfold ps_covers, ps_count in C.
  assert (K : forall u v, cnt (ps_data s) u v <> 0 -> INT_MIN <= u < INT_MAX /\ INT_MIN <= v < INT_MAX) by (intros u v; apply cnt_int; [exact (ok_closed _ O)|intros w Hw; specialize (D w Hw); exact D]).
  destruct (ps_orient s); cbn [wind] in C; [specialize (K y x)|specialize (K x y)]; lia.
Qed.
Lemma zsum_in a n c d : a <= c -> c <= d -> d <= a + Z.of_nat n -> zsum (fun i => b2z ((c <=? i) && (i <? d))) (zrange a n) = d - c.
Proof.
  intros H1 H2 H3. pose proof (zsum_step a n c ltac:(lia)) as A. pose proof (zsum_step a n d ltac:(lia)) as B.
  rewrite (zsum_ext _ (fun i => b2z (c <=? i) + - b2z (d <=? i))); [rewrite zsum_add, zsum_opp, A, B; lia|].
  intros i _. destruct (Z.leb_spec c i), (Z.ltb_spec i d), (Z.leb_spec d i); cbn [andb b2z]; lia.
Qed.
Lemma rect_cells x n y m r : solid r -> x <= xl r -> xh r <= x + Z.of_nat n -> y <= yl r -> yh r <= y + Z.of_nat m ->
  box_sum x n y m (fun i j => b2z (in_rect r i j)) = (xh r - xl r) * (yh r - yl r).
Proof.
  intros [S1 S2] H1 H2 H3 H4. unfold box_sum. rewrite (zsum_ext _ (fun i => (yh r - yl r) * b2z ((xl r <=? i) && (i <? xh r)))).
  - rewrite zsum_scale, zsum_in by lia. lia.
  - intros i _. destruct ((xl r <=? i) && (i <? xh r)) eqn:E; cbn [b2z].
    + rewrite (zsum_ext _ (fun j => b2z ((yl r <=? j) && (j <? yh r)))); [rewrite zsum_in by lia; lia|]. intros j _. unfold in_rect. f_equal. lia.
    + rewrite (zsum_ext _ (fun j => 0 * 0)); [rewrite zsum_scale; lia|]. intros j _. unfold in_rect. replace ((xl r <=? i) && (i <? xh r) && (yl r <=? j) && (j <? yh r)) with false by (destruct (xl r <=? i), (i <? xh r); cbn [andb] in *; try congruence; lia). reflexivity.
Qed.
Lemma cover_cells x n y m rs : Forall solid rs -> (forall r, In r rs -> x <= xl r /\ xh r <= x + Z.of_nat n /\ y <= yl r /\ yh r <= y + Z.of_nat m) ->
  box_sum x n y m (cover_count rs) = zsum (fun r => (xh r - xl r) * (yh r - yl r)) rs.
Proof.
  intros S H. induction rs as [|r rs IH].
  - unfold box_sum. rewrite (zsum_ext _ (fun i => 0 * 0)); [rewrite zsum_scale; reflexivity|]. intros i _. rewrite (zsum_ext _ (fun j => 0 * 0)); [rewrite zsum_scale; lia|]. reflexivity.
  - inversion S as [|? ? S1 S2]; subst. rewrite zsum_cons, <- IH by (try assumption; intros q Hq; apply H; right; exact Hq). specialize (H r (or_introl eq_refl)).
    rewrite <- (rect_cells x n y m r) by (try assumption; lia). rewrite <- box_sum_add. reflexivity.
Qed.
(* the loop of area *)
Lemma area_fold rs : Forall (fun r => rect_int r /\ rect_ok r) rs -> forall a, 0 <= a < 2 ^ 63 ->
  let N := a + zsum (fun r => (xh r - xl r) * (yh r - yl r)) rs in
  fold_outcome (fun a r => try d <- r_area r; chk64 (a + d)) rs a = if N <? 2 ^ 63 then Ok N else Overflow.
Proof.
  induction rs as [|r rs IH]; intros F a Ha N.
  - unfold N. cbn [fold_outcome]. unfold zsum. cbn [fold_right]. rewrite Z.add_0_r. replace (a <? 2 ^ 63) with true by lia. reflexivity.
  - inversion F as [|? ? [F1 F2] F3]; subst. unfold N. rewrite zsum_cons. clear N.
    assert (Nn : 0 <= zsum (fun r => (xh r - xl r) * (yh r - yl r)) rs).
    { apply zsum_nonneg. intros q Hq. rewrite Forall_forall in F3. destruct (F3 q Hq) as [_ [K1 K2]]. nia. }
    assert (Nr : 0 <= (xh r - xl r) * (yh r - yl r)) by (destruct F2; nia).
    destruct (r_area_eq r F1 F2) as [A B]. cbn [fold_outcome]. destruct (Z_lt_dec ((xh r - xl r) * (yh r - yl r)) (2 ^ 63)) as [C|C].
    + apply A in C as E. rewrite E. cbn [obind]. set (d := (xh r - xl r) * (yh r - yl r)) in *. set (z := zsum _ rs) in *. unfold chk64.
      destruct (Z_lt_dec (a + d) (2 ^ 63)) as [C2|C2].
      * replace ((- 2 ^ 63 <=? a + d) && (a + d <? 2 ^ 63)) with true by lia. cbn [obind]. rewrite IH by (try assumption; lia). cbv zeta. fold z. replace (a + d + z) with (a + (d + z)) by lia. reflexivity.
      * replace ((- 2 ^ 63 <=? a + d) && (a + d <? 2 ^ 63)) with false by lia. cbn [obind]. replace (a + (d + z) <? 2 ^ 63) with false by lia. reflexivity.
    + assert (E : r_area r = Overflow) by (apply B; lia). rewrite E. cbn [obind]. match goal with |- _ = if ?c then _ else _ => replace c with false by lia end. reflexivity.
Qed.
Lemma tiles_rect_int t rs : ps_ok t -> tiles rs (ps_covers t) -> Forall (fun r => rect_int r /\ rect_ok r) rs.
Proof.
  intros O [S [_ T]]. apply Forall_forall. intros r Hr. rewrite Forall_forall in S. destruct (S r Hr) as [S1 S2].
  assert (C1 : ps_covers t (xl r) (yl r)) by (apply T; exists r; split; [exact Hr|unfold in_rect; lia]).
  assert (C2 : ps_covers t (xh r - 1) (yh r - 1)) by (apply T; exists r; split; [exact Hr|unfold in_rect; lia]).
  apply covers_int in C1; [|exact O]. apply covers_int in C2; [|exact O]. unfold rect_int, rect_ok, is_int. lia.
Qed.
Lemma cover_le1 rs P x y : tiles rs P -> cover_count rs x y <= 1.
Proof.
  intros [_ [D _]]. induction rs as [|r rs IH]; [cbn; lia|]. inversion D as [|? ? D1 D2]; subst. cbn [cover_count]. specialize (IH D2). destruct (in_rect r x y) eqn:E; cbn [b2z]; [|lia].
  enough (cover_count rs x y <= 0) by lia. destruct (Z_lt_dec 0 (cover_count rs x y)) as [C|C]; [|lia]. exfalso. apply cover_count_pos in C as [q [Hq Eq]]. rewrite Forall_forall in D1. exact (D1 q Hq x y (conj E Eq)).
Qed.
Lemma free_area_spec t : ps_ok t -> exists N, cell_count (ps_covers t) N /\
  free_area t = if N <? 2 ^ 63 then Ok N else Overflow.
Proof.
  intros O. destruct (vector_rects_spec t O) as [rs [E T]]. pose proof (tiles_rect_int t rs O T) as RI. pose proof T as [S [D C]].
  exists (zsum (fun r => (xh r - xl r) * (yh r - yl r)) rs). split.
  - destruct (Z_of_nat_complete (INT_MAX - INT_MIN)) as [N EN]; [unfold INT_MAX, INT_MIN; lia|].
    exists (cover_count rs), INT_MIN, N, INT_MIN, N. split; [|split].
    + intros i j. pose proof (cover_le1 rs _ i j T) as L. pose proof (cover_count_nonneg rs i j) as Nn. pose proof (cover_count_pos rs i j) as Ps. split; intros H.
      * apply C in H. apply Ps in H. lia.
      * destruct (Z_lt_dec 0 (cover_count rs i j)) as [K|K]; [|lia]. exfalso. apply H, C, Ps, K.
    + intros i j H. apply covers_int in H; [|exact O]. lia.
    + symmetry. apply cover_cells; [exact S|]. intros r Hr. rewrite Forall_forall in RI. destruct (RI r Hr) as [RI1 _]. unfold rect_int, is_int in RI1. lia.
  - unfold free_area. rewrite E. cbn [lift obind]. rewrite area_fold by (try exact RI; lia). cbv zeta. rewrite Z.add_0_l. reflexivity.
Qed.
(* the number of cells is unique *)
Lemma seq_from p k : seq p k = map (fun c => (p + c)%nat) (seq 0 k).
Proof.
  assert (G : forall z, seq (p + z) k = map (fun c => (p + c)%nat) (seq z k)).
  { induction k as [|k IH]; intros z; [reflexivity|]. cbn [seq map]. f_equal. rewrite <- IH. f_equal. lia. }
  rewrite <- (G 0%nat). f_equal. lia.
Qed.
Lemma box_sum_mono_ext x n y m f : forall x' n' y' m', (forall i j, f i j <> 0 -> x <= i < x + Z.of_nat n /\ y <= j < y + Z.of_nat m) ->
  x' <= x -> x + Z.of_nat n <= x' + Z.of_nat n' -> y' <= y -> y + Z.of_nat m <= y' + Z.of_nat m' -> box_sum x' n' y' m' f = box_sum x n y m f.
Proof.
  assert (One : forall a k g b l, (forall i, g i <> 0 -> a <= i < a + Z.of_nat k) -> b <= a -> a + Z.of_nat k <= b + Z.of_nat l -> zsum g (zrange b l) = zsum g (zrange a k)).
  { intros a k g b l H H1 H2. assert (El : exists p q, l = (p + k + q)%nat /\ a = b + Z.of_nat p) by (exists (Z.to_nat (a - b)), (l - Z.to_nat (a - b) - k)%nat; lia).
    destruct El as [p [q [-> ->]]]. unfold zrange. rewrite !seq_app, !map_app, !zsum_app. rewrite !zsum_map.
    assert (Z1 : zsum (fun c => g (b + Z.of_nat c)) (seq 0 p) = 0).
    { rewrite (zsum_ext _ (fun _ => 0 * 0)); [rewrite zsum_scale; reflexivity|]. intros c Hc. apply in_seq in Hc. destruct (Z.eq_dec (g (b + Z.of_nat c)) 0) as [K|K]; [lia|]. specialize (H _ K). lia. }
    assert (Z2 : zsum (fun c => g (b + Z.of_nat c)) (seq (0 + (p + k)) q) = 0).
    { rewrite (zsum_ext _ (fun _ => 0 * 0)); [rewrite zsum_scale; reflexivity|]. intros c Hc. apply in_seq in Hc. destruct (Z.eq_dec (g (b + Z.of_nat c)) 0) as [K|K]; [lia|]. specialize (H _ K). lia. }
    rewrite Z1, Z2. cbn [Nat.add]. rewrite (seq_from p k).
    rewrite zsum_map. rewrite Z.add_0_l, Z.add_0_r. apply zsum_ext. intros c _. f_equal. lia. }
  intros x' n' y' m' H H1 H2 H3 H4. unfold box_sum. rewrite (One x n _ x' n'); try assumption.
  - apply zsum_ext. intros i Hi. apply One; try assumption. intros j Hj. apply (H i j Hj).
  - intros i Hi. destruct (Z_le_dec x i) as [K1|K1]; [destruct (Z_lt_dec i (x + Z.of_nat n)) as [K2|K2]; [lia|]|]; exfalso; apply Hi;
      (rewrite (zsum_ext _ (fun _ => 0 * 0)); [rewrite zsum_scale; reflexivity|]); intros j _; (destruct (Z.eq_dec (f i j) 0) as [K|K]; [lia|]); specialize (H i j K); lia.
Qed.
Lemma cell_count_unique P N M : (forall x y, P x y \/ ~ P x y) -> cell_count P N -> cell_count P M -> N = M.
Proof.
  intros Dec [f [x [n [y [m [F [B ->]]]]]]] [g [x' [n' [y' [m' [G [B' ->]]]]]]].
  assert (E : forall i j, f i j = g i j) by (intros i j; destruct (Dec i j) as [K|K]; [rewrite (proj1 (F i j) K), (proj1 (G i j) K)|rewrite (proj2 (F i j) K), (proj2 (G i j) K)]; reflexivity).
  assert (FB : forall i j, f i j <> 0 -> (x <= i < x + Z.of_nat n /\ y <= j < y + Z.of_nat m) /\ (x' <= i < x' + Z.of_nat n' /\ y' <= j < y' + Z.of_nat m')).
  { intros i j K. destruct (Dec i j) as [Q|Q]; [split; [apply B|apply B']; exact Q|]. rewrite (proj2 (F i j) Q) in K. congruence. }
  set (X := Z.min x x'). set (Y := Z.min y y'). set (A := Z.to_nat (Z.max (x + Z.of_nat n) (x' + Z.of_nat n') - X)). set (C := Z.to_nat (Z.max (y + Z.of_nat m) (y' + Z.of_nat m') - Y)).
  rewrite <- (box_sum_mono_ext x n y m f X A Y C) by (try (intros i j K; apply (FB i j K)); unfold X, Y, A, C; lia).
  rewrite <- (box_sum_mono_ext x' n' y' m' g X A Y C) by (try (intros i j K; apply (FB i j); rewrite E; exact K); unfold X, Y, A, C; lia).
  apply box_sum_ext. exact E.
Qed.
