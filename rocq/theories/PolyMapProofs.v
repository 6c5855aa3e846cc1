(* assign, convolve, move, transform and scale of polygons. *)
From Verif Require Import Base Units Outcome Scan90Spec Poly90Spec Poly90Model Poly90Proofs PolyCycle Poly90Vertices IsoSpec IsoModel IsoProofs.
From Verif Require Import Set90Spec Set90Model GeoSpec IvlModel IvlProofs RectModel RectProofs SegModel SegProofs PolySpec PolyModel PolyArea PolyEdge PolyContains Poly90Contains PolyMaps PolyMapModel PolySnap.

(* ---------- maps of points ---------- *)
Lemma map_points_inv f g l m : (forall p q, f p = Ok q -> q = g p) -> map_points f l = Ok m -> m = map g l.
Proof.
  intros H. revert m. induction l as [|p l IH]; intros m E; cbn [map_points] in E; [cbn [map]; congruence|].
  inv_try E. inv_try E. cbn [map]. rewrite <- (H _ _ E0), <- (IH _ eq_refl). congruence.
Qed.
Lemma map_points_ok f g l : (forall p, In p l -> f p = Ok (g p)) -> map_points f l = Ok (map g l).
Proof.
  induction l as [|p l IH]; intros H; [reflexivity|]. cbn [map_points]. rewrite (H p (or_introl eq_refl)). cbn [obind].
  rewrite IH by (intros q Hq; apply H; right; exact Hq). reflexivity.
Qed.
Lemma map_points_all f (P : point -> Prop) l m : (forall p q, f p = Ok q -> P q) -> map_points f l = Ok m -> Forall P m.
Proof.
  intros H. revert m. induction l as [|p l IH]; intros m E; cbn [map_points] in E; [assert (m = []) by congruence; subst; constructor|].
  inv_try E. inv_try E. assert (m = a :: a0) by congruence. subst m. constructor; [exact (H _ _ E0)|apply IH; reflexivity].
Qed.
Definition atr_pt (a : Z) (p : point) : point := let q := atr_transform a (px p, py p) in mk_pt (fst q) (snd q).
Lemma atr_int_inv a p q : pt_map (atr_int a) p = Ok q -> q = atr_pt a p /\ pt_int q.
Proof.
  unfold pt_map, atr_int. cbn [fst snd]. intros H. inv_try H. inv_try E. inv_try E. apply chk_inv in E0, E1. destruct E0 as [-> I0], E1 as [-> I1].
  destruct a0 as [u v]. assert (Q : q = mk_pt u v) by congruence. subst q. unfold atr_pt, atr_transform. cbn [fst snd].
  assert (Z1 : negb (zb (bitset a 4) =? 0) = bitset a 4) by (destruct (bitset a 4); reflexivity). rewrite Z1.
  unfold predicated_swap in *. destruct (bitset a 4); cbn [fst snd] in *;
    match type of E with Ok (?s, ?t) = _ => assert (u = s) by congruence; assert (v = t) by congruence; subst u v end; split; try reflexivity; split; assumption.
Qed.
Lemma atr_int_ok a p : 0 <= a < 8 -> pt_int p -> px p <> INT_MIN -> py p <> INT_MIN -> pt_map (atr_int a) p = Ok (atr_pt a p).
Proof.
  intros A [I1 I2] N1 N2. unfold pt_map, atr_int, atr_pt, atr_transform. cbn [fst snd].
  assert (Z1 : negb (zb (bitset a 4) =? 0) = bitset a 4) by (destruct (bitset a 4); reflexivity). rewrite Z1.
  assert (K : forall c b, is_int c -> c <> INT_MIN -> is_int (c * - (Z.shiftl (zb b) 1 - 1))).
  { intros c b IC NC. replace (- (Z.shiftl (zb b) 1 - 1)) with (if b then -1 else 1) by (destruct b; reflexivity). unfold is_int, INT_MIN, INT_MAX in *. destruct b; lia. }
  rewrite !chk_ok by (apply K; assumption). cbn [obind]. unfold predicated_swap. destruct (bitset a 4); reflexivity.
Qed.
Lemma atr_pt_cases a : 0 <= a < 8 -> forall p, atr_pt a p =
  match a with
  | 0 => p | 1 => flip_x p | 2 => flip_y p | 3 => flip_y (flip_x p)
  | 4 => swap_xy p | 5 => swap_xy (flip_x p) | 6 => swap_xy (flip_y p) | _ => swap_xy (flip_y (flip_x p))
  end.
Proof.
  intros A p. unfold atr_pt. rewrite atr_transform_spec by exact A. destruct p as [x y]. cbn [px py].
  assert (C : a = 0 \/ a = 1 \/ a = 2 \/ a = 3 \/ a = 4 \/ a = 5 \/ a = 6 \/ a = 7) by lia.
  destruct C as [->|[->|[->|[->|[->|[->|[->| ->]]]]]]]; unfold combine_dirs, flip_x, flip_y, swap_xy, atr_dirs, unit_vec; cbn [fst snd px py]; f_equal; ring.
Qed.
Lemma keeps_atr a : 0 <= a < 8 -> keeps (atr_pt a).
Proof.
  intros A. apply (keeps_ext _ _ (fun p => eq_sym (atr_pt_cases a A p))).
  assert (C : a = 0 \/ a = 1 \/ a = 2 \/ a = 3 \/ a = 4 \/ a = 5 \/ a = 6 \/ a = 7) by lia.
  destruct C as [->|[->|[->|[->|[->|[->|[->| ->]]]]]]].
  - exact keeps_id.
  - exact keeps_flip_x.
  - exact keeps_flip_y.
  - exact (keeps_comp _ _ keeps_flip_x keeps_flip_y).
  - exact keeps_swap.
  - exact (keeps_comp _ _ keeps_flip_x keeps_swap).
  - exact (keeps_comp _ _ keeps_flip_y keeps_swap).
  - exact (keeps_comp _ _ (keeps_comp _ _ keeps_flip_x keeps_flip_y) keeps_swap).
Qed.
Definition inj (f : point -> point) : Prop := forall p q, f p = f q -> p = q.
Lemma atr_inj a : 0 <= a < 8 -> inj (atr_pt a).
Proof.
  intros A p q. rewrite !(atr_pt_cases a A).
  assert (C : a = 0 \/ a = 1 \/ a = 2 \/ a = 3 \/ a = 4 \/ a = 5 \/ a = 6 \/ a = 7) by lia. destruct p as [p1 p2], q as [q1 q2].
  destruct C as [->|[->|[->|[->|[->|[->|[->| ->]]]]]]]; unfold flip_x, flip_y, swap_xy; cbn [px py]; intros E;
   pose proof (f_equal px E) as E1; pose proof (f_equal py E) as E2; cbn [px py] in E1, E2; f_equal; lia.
Qed.
Lemma shift_inj d : inj (shift_by d).
Proof. intros [p1 p2] [q1 q2]. unfold shift_by. cbn [px py]. intros E. pose proof (f_equal px E) as E1. pose proof (f_equal py E) as E2. cbn [px py] in E1, E2. f_equal; lia. Qed.
Lemma times_inj k : 0 < k -> inj (times k).
Proof. intros K [p1 p2] [q1 q2]. unfold times. cbn [px py]. intros E. pose proof (f_equal px E) as E1. pose proof (f_equal py E) as E2. cbn [px py] in E1, E2. f_equal; nia. Qed.

(* ---------- contains ---------- *)
Lemma on_curve_dec l p : {on_curve l p} + {~ on_curve l p}.
Proof.
  unfold on_curve. destruct (Exists_dec (fun e => on_edge e p) (cyc_edges l) (fun e => on_edge_dec e p)) as [X|X]; rewrite Exists_exists in X; [left|right]; exact X.
Qed.
Lemma two_points_map f l : inj f -> (two_points (map f l) <-> two_points l).
Proof.
  intros I. unfold two_points. split.
  - intros [a [b [Ha [Hb N]]]]. apply in_map_iff in Ha, Hb. destruct Ha as [a' [<- Ha]], Hb as [b' [<- Hb]]. exists a', b'. repeat split; try assumption. congruence.
  - intros [a [b [Ha [Hb N]]]]. exists (f a), (f b). repeat split; [apply in_map, Ha|apply in_map, Hb|]. intros E. apply N, I, E.
Qed.
Lemma two_points_dec l : two_points l \/ ~ two_points l.
Proof.
  destruct l as [|f t]; [right; intros [a [b [[] _]]]|]. destruct (Forall_Exists_dec (fun q => q = f) (fun q => ltac:(destruct (pt_eqb_spec q f); [left|right]; assumption)) t) as [A|E].
  - right. rewrite Forall_forall in A. intros [a [b [Ha [Hb N]]]]. apply N. transitivity f; [destruct Ha as [<-|Ha]; [reflexivity|apply A, Ha]|destruct Hb as [<-|Hb]; [reflexivity|symmetry; apply A, Hb]].
  - left. rewrite Exists_exists in E. destruct E as [q [Hq N]]. exists q, f. repeat split; [right; exact Hq|left; reflexivity|exact N].
Qed.
Lemma contains_general_map f l p touch : keeps f -> inj f -> Forall pt_int l -> Forall pt_int (map f l) -> pt_int p -> pt_int (f p) ->
  contains_general (map f l) (f p) touch = contains_general l p touch.
Proof.
  intros [K1 K2] J I1 I2 I3 I4. destruct (two_points_dec l) as [T|T].
  - pose proof (proj2 (two_points_map f l J) T) as T'.
    destruct (contains_general_spec l p touch I1 I3 T) as [A B]. destruct (contains_general_spec (map f l) (f p) touch I2 I4 T') as [A' B'].
    pose proof (on_curve_map f l p (fun a b => K1 a b p)) as OC. destruct (on_curve_dec l p) as [O|O].
    + rewrite A, A' by tauto. reflexivity.
    + rewrite B, B' by tauto. apply K2. exact O.
  - rewrite !contains_general_degenerate; [reflexivity|exact T|]. rewrite two_points_map by exact J. exact T.
Qed.
Lemma nz_map f l : inj f -> no_zero_edge l -> no_zero_edge (map f l).
Proof.
  intros J. unfold no_zero_edge. rewrite cyc_map, !Forall_forall. intros Z0 e He. apply in_map_iff in He. destruct He as [[a b] [<- He]]. cbn [fst snd].
  intros E. apply (Z0 _ He). cbn [fst snd]. apply J. exact E.
Qed.
(* maps that keep horizontal and vertical directions apart *)
Definition dir_map (sw : bool) (f : point -> point) : Prop :=
  forall p q, (py p = py q -> if sw then px (f p) = px (f q) else py (f p) = py (f q)) /\ (px p = px q -> if sw then py (f p) = py (f q) else px (f p) = px (f q)).
Lemma alt_map sw f l o : dir_map sw f -> alternates o l -> alternates (if sw then perp o else o) (map f l).
Proof.
  intros D [E A]. split; [rewrite map_length; exact E|]. rewrite cyc_map. revert A. generalize (cyc_edges l) as es. clear E. intros es. revert o.
  induction es as [|[a b] es IH]; intros o A; [destruct sw, o; exact I|]. cbn [map fst snd]. destruct (D a b) as [D1 D2].
  destruct o; cbn [alt_edges] in A; destruct A as [A1 A2]; specialize (IH _ A2); destruct sw; cbn [perp alt_edges] in *; auto.
Qed.
(* the cycles of the result *)
Lemma ring_map sw f l : Nat.Even (length l) -> no_zero_edge (ring_points l) -> dir_map sw f ->
  ring_points (points_to_compact (map f (compact_to_points l))) =
  match sw, map f (ring_points l) with
  | true, a :: t => t ++ [a]
  | _, m => m
  end.
Proof.
  intros E Z0 D. rewrite (ctp_ring_points l E Z0). pose proof (alt_map sw f _ Horizontal D (ring_alternates l E)) as A.
  destruct sw; cbn [perp] in A; [|apply ring_of_points_h; exact A].
  destruct (map f (ring_points l)) as [|a t]; [reflexivity|]. rewrite (ptc_rotate a t A). apply ring_of_points_h. exact (alt_rotate a t A).
Qed.
Lemma ring_map_ok sw f l : Nat.Even (length l) -> no_zero_edge (ring_points l) -> dir_map sw f -> inj f ->
  let m := points_to_compact (map f (compact_to_points l)) in Nat.Even (length m) /\ no_zero_edge (ring_points m).
Proof.
  intros E Z0 D J m. split.
  - unfold m. rewrite ptc_length, map_length, (ctp_ring_points l E Z0). apply (ring_alternates l E).
  - unfold m. rewrite (ring_map sw f l E Z0 D). pose proof (nz_map f _ J Z0) as N. destruct sw; [|exact N]. destruct (map f (ring_points l)) as [|a t]; [exact N|]. apply nz_rotate. exact N.
Qed.
Lemma on_curve_rotate a t p : on_curve (t ++ [a]) p <-> on_curve (a :: t) p.
Proof.
  unfold on_curve. assert (P : Permutation.Permutation (cyc_edges (t ++ [a])) (cyc_edges (a :: t))) by apply cyc_rot.
  split; intros [e [I O]]; exists e; (split; [|exact O]); revert I; apply Permutation.Permutation_in; [exact P|symmetry; exact P].
Qed.
Lemma contains_90_map sw f l p touch : keeps f -> inj f -> dir_map sw f -> Nat.Even (length l) -> no_zero_edge (ring_points l) ->
  contains_90 (points_to_compact (map f (compact_to_points l))) (f p) touch = contains_90 l p touch.
Proof.
  intros [K1 K2] J D E Z0. pose proof (ring_map_ok sw f l E Z0 D J) as M. cbv zeta in M. destruct M as [E' Z'].
  destruct (contains_90_spec l p touch E Z0) as [A B].
  destruct (contains_90_spec _ (f p) touch E' Z') as [A' B'].
  pose proof (ring_map sw f l E Z0 D) as R.
  set (m := points_to_compact (map f (compact_to_points l))) in *. clearbody m.
  assert (OC : on_curve (ring_points m) (f p) <-> on_curve (ring_points l) p).
  { rewrite <- (on_curve_map f (ring_points l) p (fun a b => K1 a b p)). rewrite R. destruct sw; [|tauto]. destruct (map f (ring_points l)) as [|a t]; [tauto|]. apply on_curve_rotate. }
  destruct (on_curve_dec (ring_points l) p) as [O|O]; [rewrite A, A' by tauto; reflexivity|].
  assert (O' : ~ on_curve (ring_points m) (f p)) by tauto. rewrite (B O), (B' O').
  rewrite <- (below_winding (ring_points m)) by (try assumption; apply ring_rectilinear; assumption).
  rewrite <- (below_winding (ring_points l)) by (try assumption; apply ring_rectilinear; assumption).
  rewrite <- (K2 _ _ O). rewrite R. destruct sw; [|reflexivity]. destruct (map f (ring_points l)) as [|a t]; [reflexivity|].
  f_equal. apply (edges_below_rotate t [a]).
Qed.
Lemma dir_atr a : 0 <= a < 8 -> dir_map (4 <=? a) (atr_pt a).
Proof.
  intros A p q. rewrite !(atr_pt_cases a A).
  assert (C : a = 0 \/ a = 1 \/ a = 2 \/ a = 3 \/ a = 4 \/ a = 5 \/ a = 6 \/ a = 7) by lia.
  destruct C as [->|[->|[->|[->|[->|[->|[->| ->]]]]]]]; cbn [Z.leb Z.compare Pos.compare Pos.compare_cont]; unfold flip_x, flip_y, swap_xy; cbn [px py]; lia.
Qed.
Lemma dir_shift d : dir_map false (shift_by d).
Proof. intros p q. unfold shift_by. cbn [px py]. lia. Qed.
Lemma dir_times k : dir_map false (times k).
Proof. intros p q. unfold times. cbn [px py]. split; intros ->; reflexivity. Qed.
Lemma dir_down k : dir_map false (fun p => pt_scale_down p k).
Proof. intros p q. unfold pt_scale_down. cbn [px py]. split; intros ->; reflexivity. Qed.

Lemma map_compact_inv f g l m : (forall p q, f p = Ok q -> q = g p) -> map_compact f l = Ok m -> m = points_to_compact (map g (compact_to_points l)).
Proof. intros H E. unfold map_compact in E. inv_try E. apply (map_points_inv f g _ _ H) in E0. subst a. congruence. Qed.
Lemma convolve_inv p d q : pt_convolve p d = Ok q -> q = shift_by d p /\ pt_int q.
Proof. unfold pt_convolve. intros H. inv_try H. inv_try H. apply chk_inv in E, E0. destruct E as [-> I0], E0 as [-> I1]. assert (q = mk_pt (px p + px d) (py p + py d)) by congruence. subst. split; [reflexivity|split; assumption]. Qed.
Lemma wrap32_id z : is_int z -> wrap32 z = z.
Proof. intros H. unfold wrap32. unfold is_int, INT_MIN, INT_MAX in H. rewrite Z.mod_small; lia. Qed.
Lemma scale_inv k p q : 0 < k -> is_int k -> pt_scale_up p k = Ok q -> q = times k p /\ pt_int q.
Proof.
  unfold pt_scale_up. intros K I. rewrite wrap32_id by exact I. intros H. inv_try H. inv_try H. apply chk_inv in E, E0. destruct E as [-> I0], E0 as [-> I1].
  assert (q = mk_pt (px p * k) (py p * k)) by congruence. subst. split; [reflexivity|split; assumption].
Qed.
(* convolve on coordinates *)
Lemma convolve_go_inv d cs : forall m, convolve_go true d (flat cs) = Ok m ->
  m = flat (map (fun c => (fst c + px d, snd c + py d)) cs).
Proof.
  induction cs as [|[x y] cs IH]; intros m H; [cbn in H; cbn; congruence|].
  change (flat ((x, y) :: cs)) with (x :: y :: flat cs) in H. cbn [convolve_go negb] in H.
  inv_try H. inv_try H. inv_try E0. inv_try E0. apply chk_inv in E, E1. destruct E as [-> _], E1 as [-> _]. specialize (IH _ eq_refl). subst a2.
  cbn [map fst snd]. unfold flat in *. cbn [flat_map app fst snd]. congruence.
Qed.
Lemma rp_shift d cs fx : rp (fx + px d) (map (fun c => (fst c + px d, snd c + py d)) cs) = map (shift_by d) (rp fx cs).
Proof.
  induction cs as [|[x y] cs IH]; [reflexivity|].
  assert (E : rp fx ((x, y) :: cs) = mk_pt x y :: mk_pt (match cs with [] => fx | (x', _) :: _ => x' end) y :: rp fx cs) by (destruct cs as [|[u w] cs']; reflexivity).
  rewrite E. cbn [map fst snd]. destruct cs as [|[x' y'] cs]; [reflexivity|]. cbn [map fst snd] in *. cbn [rp map] in *. rewrite IH. reflexivity.
Qed.
Lemma convolve_90_ring d l m : Nat.Even (length l) -> convolve_90 d l = Ok m -> ring_points m = map (shift_by d) (ring_points l) /\ length m = length l.
Proof.
  intros [n L] H. destruct (even_flat n l L) as [cs [-> _]]. unfold convolve_90 in H. apply convolve_go_inv in H. subst m.
  split; [|rewrite !flat_length, map_length; reflexivity]. destruct cs as [|[x y] cs]; [reflexivity|].
  transitivity (rp (x + px d) (map (fun c => (fst c + px d, snd c + py d)) ((x, y) :: cs))).
  - exact (ring_points_flat (x + px d) (map (fun c => (fst c + px d, snd c + py d)) ((x, y) :: cs))).
  - rewrite rp_shift. f_equal. symmetry. exact (ring_points_flat x ((x, y) :: cs)).
Qed.
Lemma contains_90_ring l m f p touch : keeps f -> inj f -> Nat.Even (length l) -> no_zero_edge (ring_points l) ->
  Nat.Even (length m) -> ring_points m = map f (ring_points l) -> contains_90 m (f p) touch = contains_90 l p touch.
Proof.
  intros [K1 K2] J E Z0 E' R. assert (Z' : no_zero_edge (ring_points m)) by (rewrite R; apply nz_map; assumption).
  destruct (contains_90_spec l p touch E Z0) as [A B]. destruct (contains_90_spec m (f p) touch E' Z') as [A' B'].
  pose proof (on_curve_map f (ring_points l) p (fun a b => K1 a b p)) as OC. rewrite <- R in OC.
  destruct (on_curve_dec (ring_points l) p) as [O|O]; [rewrite A, A' by tauto; reflexivity|].
  assert (O' : ~ on_curve (ring_points m) (f p)) by tauto. rewrite (B O), (B' O').
  rewrite <- (below_winding (ring_points m)) by (try assumption; apply ring_rectilinear; assumption).
  rewrite <- (below_winding (ring_points l)) by (try assumption; apply ring_rectilinear; assumption).
  rewrite <- (K2 _ _ O). rewrite R. reflexivity.
Qed.

(* ---------- rectangles ---------- *)
Lemma rect_nz r : xl r < xh r -> yl r < yh r -> no_zero_edge (poly_of_rect r).
Proof.
  intros X Y. unfold no_zero_edge, poly_of_rect. cbn [cyc_edges app combine]. repeat constructor; cbn [fst snd]; intros E;
  pose proof (f_equal px E) as E1; pose proof (f_equal py E) as E2; cbn [px py] in E1, E2; lia.
Qed.
Lemma rect_alt r : alternates Horizontal (poly_of_rect r).
Proof. split; [exists 2%nat; reflexivity|]. unfold poly_of_rect. cbn [cyc_edges app combine alt_edges px py]. tauto. Qed.
Lemma rect_contains_90 r p touch : xl r < xh r -> yl r < yh r -> contains_90 (poly90_of_rect r) p touch = r_contains_pt r p touch.
Proof.
  intros X Y. unfold contains_90, poly90_of_rect. rewrite points_round_trip_h by (try apply rect_alt; apply rect_nz; assumption).
  unfold poly_of_rect, points_contains_90. cbn [c90_loop]. unfold c90_edge, r_contains_pt, contains_v, horizontal, vertical. cbn [px py lo hi].
  rewrite !Z.eqb_refl. replace (xl r =? xh r) with false by lia. replace (xh r =? xl r) with false by lia.
  rewrite (Z.min_l (xl r)), (Z.max_r (xl r)), (Z.min_r (xh r)), (Z.max_l (xh r)), (Z.min_l (yl r)), (Z.max_r (yl r)), (Z.min_r (yh r)), (Z.max_l (yh r)) by lia.
  replace (yl r <? yh r) with true by lia. replace (yh r <? yl r) with false by lia.
  destruct p as [x y]; cbn [px py].
  destruct (Z.lt_trichotomy x (xl r)) as [X1|[X1|X1]].
  - replace (x >=? xl r) with false by lia. replace (xh r >? x) with true by lia. cbn [andb]. replace (xl r >? x) with true by lia. destruct touch; cbn; lia.
  - replace (x >=? xl r) with true by lia. replace (x <=? xh r) with true by lia. replace (xh r >? x) with true by lia. replace (xl r >? x) with false by lia. cbn [andb].
    replace (xl r =? x) with true by lia.
    destruct (Z.eqb_spec (yl r) y) as [Y1|Y1]; [destruct touch; lia|]. destruct (Z.eqb_spec (yh r) y) as [Y2|Y2]; [destruct touch; lia|].
    replace (y =? yl r) with false by lia. replace (y =? yh r) with false by lia. cbn [orb].
    destruct (Z.gtb_spec y (yl r)), (Z.ltb_spec y (yh r)); cbn [andb]; destruct touch; cbn; lia.
  - destruct (Z.lt_trichotomy x (xh r)) as [X2|[X2|X2]].
    + replace (x >=? xl r) with true by lia. replace (x <=? xh r) with true by lia. replace (xh r >? x) with true by lia. replace (xl r >? x) with false by lia. cbn [andb].
      replace (xl r =? x) with false by lia.
      destruct (Z.eqb_spec (yl r) y) as [Y1|Y1]; [destruct touch; lia|]. destruct (Z.eqb_spec (yh r) y) as [Y2|Y2]; [destruct touch; lia|].
      replace (y =? yl r) with false by lia. replace (y =? yh r) with false by lia. cbn [orb].
      destruct (Z.gtb_spec y (yl r)), (Z.ltb_spec y (yh r)); cbn [andb]; destruct touch; cbn; lia.
    + replace (x >=? xl r) with true by lia. replace (x <=? xh r) with true by lia. replace (xh r >? x) with false by lia. replace (xl r >? x) with false by lia. cbn [andb].
      replace (xh r =? x) with true by lia. replace (xl r =? x) with false by lia.
      destruct (Z.eqb_spec (yl r) y) as [Y1|Y1]; [destruct touch; lia|]. destruct (Z.eqb_spec (yh r) y) as [Y2|Y2]; [replace (y =? yl r) with false by lia; replace (y =? yh r) with true by lia; replace (y <? yh r) with false by lia; rewrite andb_false_r; destruct touch; cbn; lia|].
      replace (y =? yl r) with false by lia. replace (y =? yh r) with false by lia. cbn [orb].
      destruct (Z.gtb_spec y (yl r)), (Z.ltb_spec y (yh r)); cbn [andb]; destruct touch; cbn; lia.
    + replace (x <=? xh r) with false by lia. replace (xh r >? x) with false by lia. replace (xl r >? x) with false by lia. rewrite andb_false_r. cbn [andb].
      replace (xh r =? x) with false by lia. replace (xl r =? x) with false by lia.
      destruct (Z.eqb_spec y (yl r)) as [Y1|Y1]; [replace (y =? yh r) with false by lia; replace (y >? yl r) with false by lia; destruct touch; cbn; lia|].
      destruct (Z.eqb_spec y (yh r)) as [Y2|Y2]; [replace (y <? yh r) with false by lia; rewrite andb_false_r; destruct touch; cbn; lia|]. cbn [orb].
      destruct (Z.gtb_spec y (yl r)), (Z.ltb_spec y (yh r)); cbn [andb]; destruct touch; cbn; lia.
Qed.
Lemma rect_two r : xl r < xh r -> two_points (poly_of_rect r).
Proof.
  intros X. exists (mk_pt (xl r) (yl r)), (mk_pt (xh r) (yl r)). unfold poly_of_rect. cbn [In]. repeat split; try tauto. intros E. pose proof (f_equal px E) as E1. cbn [px] in E1. lia.
Qed.
Lemma rect_contains r p touch : xl r < xh r -> yl r < yh r -> Forall pt_int (poly_of_rect r) -> pt_int p ->
  contains_general (poly_of_rect r) p touch = r_contains_pt r p touch.
Proof.
  intros X Y I J. rewrite <- rect_contains_90 by assumption.
  assert (R : ring_points (poly90_of_rect r) = poly_of_rect r) by (apply ring_of_points_h, rect_alt).
  assert (E : Nat.Even (length (poly90_of_rect r))) by (exists 2%nat; reflexivity).
  assert (Z0 : no_zero_edge (ring_points (poly90_of_rect r))) by (rewrite R; apply rect_nz; assumption).
  pose proof (ring_rectilinear _ E Z0) as RL.
  destruct (contains_90_spec (poly90_of_rect r) p touch E Z0) as [A B].
  destruct (contains_general_spec (poly_of_rect r) p touch I J (rect_two r X)) as [A' B'].
  rewrite R in *. destruct (on_curve_dec (poly_of_rect r) p) as [O|O]; [rewrite A, A' by exact O; reflexivity|].
  rewrite (B O), (B' O). apply below_winding; assumption.
Qed.
