(* C53, C54, C55 and C10: the free functions area, bloat, shrink, resize, grow_and
   and keep on Manhattan polygon sets. [cell_count P N]: the region P has N cells
   of unit area. *)
From Verif Require Import Base Units Scan90Spec IsoSpec Poly90Spec PolyFormSpec Set90Spec Set90Model Set90Proofs Set90Cor
  ResizeSpec ResizePolyModel ResizePolyCor Free90Spec Free90Model Free90Proofs Free90Ops P_Resize P_ResizePoly.

(* area is the number of unit cells of the region, however often the cells are
   covered by the shapes inserted; if this number does not fit into 64 bits, the
   addition overflows *)
Theorem C53_area : forall st i, reachable st -> exists N, cell_count (ps_covers (st i)) N /\
  free_area (st i) = if N <? 2 ^ 63 then Ok N else Overflow.
Proof. intros st i H. apply free_area_spec, reachable_ok, H. Qed.
Print Assumptions C53_area.
Example C53_area_demo : free_area (demo10_store 0%nat) = Ok (9 * 9 - 3 * 3 + 8 * 4).
Proof. vm_compute. reflexivity. Qed.
Example C53_area_overlap_demo : free_area (ps_insert_rect (ps_insert_rect (ps_new Horizontal) (mk_rect 0 5 0 5) false) (mk_rect 3 7 3 7) false) = Ok (25 + 16 - 4).
Proof. vm_compute. reflexivity. Qed.
(* a region has one number of cells only *)
Theorem C53_cell_count_unique : forall P N M, (forall x y, P x y \/ ~ P x y) -> cell_count P N -> cell_count P M -> N = M.
Proof. exact cell_count_unique. Qed.
Print Assumptions C53_cell_count_unique.
(* sets that cover the same region have the same area *)
Theorem C53_area_of_equal_sets : forall st i j, reachable st -> (forall x y, ps_covers (st i) x y <-> ps_covers (st j) x y) ->
  free_area (st i) = free_area (st j).
Proof.
  intros st i j H E. destruct (C53_area st i H) as [N [CN ->]]. destruct (C53_area st j H) as [M [CM ->]].
  assert (N = M); [|subst M; reflexivity]. apply (cell_count_unique (ps_covers (st j)) N M (covers_dec (st j))); [|exact CM].
  destruct CN as [f [x [n [y [m [F [B K]]]]]]]. exists f, x, n, y, m. split; [intros a b; rewrite <- E; apply F|]. split; [intros a b; rewrite <- E; apply B|exact K].
Qed.
Print Assumptions C53_area_of_equal_sets.
(* the area of a set with coordinates of at most 2^30 does not overflow *)
Theorem C53_area_no_overflow : forall st i B, reachable st -> in_square B (st i) -> 0 <= B <= 2 ^ 30 -> exists a, free_area (st i) = Ok a.
Proof. intros st i B H. apply free_area_total, reachable_ok, H. Qed.
Print Assumptions C53_area_no_overflow.
(* but that of a set of int coordinates may *)
Definition huge : list op := [ONew 0 Horizontal; OInsertRect 0 (mk_rect INT_MIN INT_MAX INT_MIN INT_MAX) false].
Lemma huge_ok : Forall op_ok huge.
Proof. unfold huge. repeat (constructor; [cbn [op_ok]; unfold rect_ok, is_int, INT_MIN, INT_MAX; cbn [xl xh yl yh]; try exact I; lia|]). constructor. Qed.
Definition huge_store : store := match run start huge with Ok (st, _) => st | _ => start end.
Lemma huge_reachable : reachable huge_store.
Proof. exists huge, []. split; [exact huge_ok|reflexivity]. Qed.
Theorem C53_area_refuted : exists st i, reachable st /\ free_area (st i) = Overflow.
Proof. exists huge_store, 0%nat. split; [exact huge_reachable|]. vm_compute. reflexivity. Qed.
Print Assumptions C53_area_refuted.

(* the free functions bloat, shrink and resize; the result is normalised: every
   cell is covered at most once *)
Theorem C10_free_bloat : forall st i w e s n, reachable st -> 0 <= w -> 0 <= e -> 0 <= s -> 0 <= n ->
  match free_bloat w e s n (st i) with
  | Ok t => ps_orient t = ps_orient (st i) /\ (forall x y, ps_count t x y = 0 \/ ps_count t x y = 1) /\
      forall x y, ps_covers t x y <-> grown w e s n (ps_covers (st i)) x y
  | Overflow => (exists x y, grown w e s n (ps_covers (st i)) x y /\
      ~ (is_int x /\ is_int (x + 1) /\ is_int y /\ is_int (y + 1))) \/ INT_MAX < w + e \/ INT_MAX < s + n
  | Undefined => False
  end.
Proof.
  intros st i w e s n H Hw He Hs Hn. pose proof (free_bloat_spec w e s n (st i) Hw He Hs Hn (reachable_ok st i H)) as K.
  destruct (free_bloat w e s n (st i)); [tauto|exact K|exact K].
Qed.
Print Assumptions C10_free_bloat.
Theorem C10_free_shrink : forall st i w e s n, reachable st -> 0 <= w -> 0 <= e -> 0 <= s -> 0 <= n ->
  match free_shrink w e s n (st i) with
  | Ok t => ps_orient t = ps_orient (st i) /\ (forall x y, ps_count t x y = 0 \/ ps_count t x y = 1) /\
      forall x y, ps_covers t x y <-> shrunk w e s n (ps_covers (st i)) x y
  | Overflow => (exists x y, ps_covers (st i) x y /\
      ~ (INT_MIN <= x + 1 - e /\ x + w <= INT_MAX /\ INT_MIN <= y + 1 - n /\ y + s <= INT_MAX)) \/
      INT_MAX < w + e \/ INT_MAX < s + n
  | Undefined => False
  end.
Proof.
  intros st i w e s n H Hw He Hs Hn. pose proof (free_shrink_spec w e s n (st i) Hw He Hs Hn (reachable_ok st i H)) as K.
  destruct (free_shrink w e s n (st i)); [tauto|exact K|exact K].
Qed.
Print Assumptions C10_free_shrink.
Theorem C10_free_resize : forall st i w e s n, reachable st ->
  match free_resize w e s n (st i) with
  | Ok t => ps_orient t = ps_orient (st i) /\ forall x y, ps_covers t x y <-> resized w e s n (ps_covers (st i)) x y
  | Overflow => True
  | Undefined => False
  end.
Proof. intros st i w e s n H. pose proof (free_resize_spec w e s n (st i) (reachable_ok st i H)) as K. destruct (free_resize w e s n (st i)); [tauto|exact I|exact K]. Qed.
Print Assumptions C10_free_resize.
Theorem C10_free_resize_no_overflow : forall st i B w e s n, reachable st -> in_square B (st i) -> 0 <= B -> 6 * B <= INT_MAX ->
  - B <= w <= B -> - B <= e <= B -> - B <= s <= B -> - B <= n <= B -> exists t, free_resize w e s n (st i) = Ok t.
Proof.
  intros st i B w e s n H Q HB HM Bw Be Bs Bn. pose proof (free_resize_total B w e s n (st i) (reachable_ok st i H) Q HB HM Bw Be Bs Bn) as K.
  pose proof (free_resize_spec w e s n (st i) (reachable_ok st i H)) as K2. destruct (free_resize w e s n (st i)) as [t| |]; [exists t; reflexivity|congruence|destruct K2].
Qed.
Print Assumptions C10_free_resize_no_overflow.
(* along an axis only the two sides of this axis move: low is west or south, high
   is east or north *)
Theorem C10_free_bloat_axis : forall st i o low high t, reachable st -> 0 <= low -> 0 <= high -> free_bloat_axis o low high (st i) = Ok t ->
  forall x y, ps_covers t x y <-> exists k, - high <= k <= low /\
    match o with Horizontal => ps_covers (st i) (x + k) y | Vertical => ps_covers (st i) x (y + k) end.
Proof.
  intros st i o low high t H Hl Hh E x y. pose proof (fun w e s n Hw He Hs Hn => free_bloat_spec w e s n (st i) Hw He Hs Hn (reachable_ok st i H)) as K.
  destruct o; cbn [free_bloat_axis] in E; [specialize (K low high 0 0)|specialize (K 0 0 low high)]; specialize (K ltac:(lia) ltac:(lia) ltac:(lia) ltac:(lia)); rewrite E in K;
    destruct K as [_ [_ [_ K]]]; rewrite K; unfold grown; (split; [intros [p [q [C B]]]|intros [k [Hk C]]]).
  - exists (p - x). split; [lia|]. replace (x + (p - x)) with p by lia. replace y with q by lia. exact C.
  - eexists _, _. split; [exact C|lia].
  - exists (q - y). split; [lia|]. replace (y + (q - y)) with q by lia. replace x with p by lia. exact C.
  - eexists _, _. split; [exact C|lia].
Qed.
Print Assumptions C10_free_bloat_axis.
Theorem C10_free_shrink_axis : forall st i o low high t, reachable st -> 0 <= low -> 0 <= high -> free_shrink_axis o low high (st i) = Ok t ->
  forall x y, ps_covers t x y <-> forall k, - low <= k <= high ->
    match o with Horizontal => ps_covers (st i) (x + k) y | Vertical => ps_covers (st i) x (y + k) end.
Proof.
  intros st i o low high t H Hl Hh E x y. pose proof (fun w e s n Hw He Hs Hn => free_shrink_spec w e s n (st i) Hw He Hs Hn (reachable_ok st i H)) as K.
  destruct o; cbn [free_shrink_axis] in E; [specialize (K low high 0 0)|specialize (K 0 0 low high)]; specialize (K ltac:(lia) ltac:(lia) ltac:(lia) ltac:(lia)); rewrite E in K;
    destruct K as [_ [_ [_ K]]]; rewrite K; unfold shrunk; (split; [intros C k Hk; apply C; lia|intros C p q Hp Hq]).
  - specialize (C (p - x) ltac:(lia)). replace (x + (p - x)) with p in C by lia. replace q with y by lia. exact C.
  - specialize (C (q - y) ltac:(lia)). replace (y + (q - y)) with q in C by lia. replace p with x by lia. exact C.
Qed.
Print Assumptions C10_free_shrink_axis.
Theorem C10_free_bloat_direction : forall st i d a t, reachable st -> 0 <= a -> free_bloat_dir d a (st i) = Ok t ->
  forall x y, ps_covers t x y <-> exists k, 0 <= k <= a /\ ps_covers (st i) (x - k * fst (unit_vec d)) (y - k * snd (unit_vec d)).
Proof.
  intros st i d a t H Ha E x y. pose proof (fun w e s n Hw He Hs Hn => free_bloat_spec w e s n (st i) Hw He Hs Hn (reachable_ok st i H)) as K.
  destruct d; cbn [free_bloat_dir unit_vec fst snd] in *; [specialize (K a 0 0 0)|specialize (K 0 a 0 0)|specialize (K 0 0 a 0)|specialize (K 0 0 0 a)];
    specialize (K ltac:(lia) ltac:(lia) ltac:(lia) ltac:(lia)); rewrite E in K; destruct K as [_ [_ [_ K]]]; rewrite K; unfold grown; (split; [intros [p [q [C B]]]|intros [k [Hk C]]]).
  - exists (p - x). split; [lia|]. replace (x - (p - x) * -1) with p by lia. replace (y - (p - x) * 0) with q by lia. exact C.
  - eexists _, _. split; [exact C|lia].
  - exists (x - p). split; [lia|]. replace (x - (x - p) * 1) with p by lia. replace (y - (x - p) * 0) with q by lia. exact C.
  - eexists _, _. split; [exact C|lia].
  - exists (q - y). split; [lia|]. replace (x - (q - y) * 0) with p by lia. replace (y - (q - y) * -1) with q by lia. exact C.
  - eexists _, _. split; [exact C|lia].
  - exists (y - q). split; [lia|]. replace (x - (y - q) * 0) with p by lia. replace (y - (y - q) * 1) with q by lia. exact C.
  - eexists _, _. split; [exact C|lia].
Qed.
Print Assumptions C10_free_bloat_direction.
Theorem C10_free_shrink_direction : forall st i d a t, reachable st -> 0 <= a -> free_shrink_dir d a (st i) = Ok t ->
  forall x y, ps_covers t x y <-> forall k, 0 <= k <= a -> ps_covers (st i) (x + k * fst (unit_vec d)) (y + k * snd (unit_vec d)).
Proof.
  intros st i d a t H Ha E x y. pose proof (fun w e s n Hw He Hs Hn => free_shrink_spec w e s n (st i) Hw He Hs Hn (reachable_ok st i H)) as K.
  destruct d; cbn [free_shrink_dir unit_vec fst snd] in *; [specialize (K a 0 0 0)|specialize (K 0 a 0 0)|specialize (K 0 0 a 0)|specialize (K 0 0 0 a)];
    specialize (K ltac:(lia) ltac:(lia) ltac:(lia) ltac:(lia)); rewrite E in K; destruct K as [_ [_ [_ K]]]; rewrite K; unfold shrunk; (split; [intros C k Hk; apply C; lia|intros C p q Hp Hq]).
  - specialize (C (x - p) ltac:(lia)). replace (x + (x - p) * -1) with p in C by lia. replace (y + (x - p) * 0) with q in C by lia. exact C.
  - specialize (C (p - x) ltac:(lia)). replace (x + (p - x) * 1) with p in C by lia. replace (y + (p - x) * 0) with q in C by lia. exact C.
  - specialize (C (y - q) ltac:(lia)). replace (x + (y - q) * 0) with p in C by lia. replace (y + (y - q) * -1) with q in C by lia. exact C.
  - specialize (C (q - y) ltac:(lia)). replace (x + (q - y) * 0) with p in C by lia. replace (y + (q - y) * 1) with q in C by lia. exact C.
Qed.
Print Assumptions C10_free_shrink_direction.
(* resize by one amount *)
Theorem C10_free_resize_all : forall st i r t, reachable st -> free_resize_all r (st i) = Ok t ->
  ps_orient t = ps_orient (st i) /\ forall x y, ps_covers t x y <-> resized r r r r (ps_covers (st i)) x y.
Proof.
  intros st i r t H E. unfold free_resize_all in E. unfold resized. destruct (Z.gtb_spec r 0) as [C|C].
  - unfold free_bloat_all in E. pose proof (free_bloat_spec r r r r (st i) ltac:(lia) ltac:(lia) ltac:(lia) ltac:(lia) (reachable_ok st i H)) as K. rewrite E in K. replace (0 <=? r + r) with true by lia. tauto.
  - destruct (Z.ltb_spec r 0) as [C2|C2].
    + destruct (chk (- r)) as [m| |] eqn:Em; cbn [obind] in E; [|discriminate|discriminate]. apply Set90Lemmas.chk_ok in Em as [-> _] || apply chk_ok in Em as [-> _].
      unfold free_shrink_all in E. pose proof (free_shrink_spec (- r) (- r) (- r) (- r) (st i) ltac:(lia) ltac:(lia) ltac:(lia) ltac:(lia) (reachable_ok st i H)) as K. rewrite E in K. replace (0 <=? r + r) with false by lia. tauto.
    + assert (t = st i) by congruence. subst t. split; [reflexivity|]. intros x y. replace r with 0 by lia. cbn [Z.add Z.leb Z.compare]. unfold grown. split; [intros K; exists x, y; split; [exact K|lia]|].
      intros [a [b [K B]]]. replace x with a by lia. replace y with b by lia. exact K.
Qed.
Print Assumptions C10_free_resize_all.
Example C10_free_demo : exists t u v, free_bloat 1 2 1 2 (demo10_store 0%nat) = Ok t /\ ps_count t 11 3 = 1 /\ ps_count t 4 4 = 1 /\ ps_count t 22 3 = 0 /\
  free_shrink_axis Vertical 1 1 (demo10_store 0%nat) = Ok u /\ ps_count u 4 1 = 1 /\ ps_count u 4 0 = 0 /\
  free_resize_all (-1) (demo10_store 0%nat) = Ok v /\ ps_count v 1 4 = 1 /\ ps_count v 0 4 = 0.
Proof. eexists _, _, _. repeat (split; [vm_compute; reflexivity|]). vm_compute. reflexivity. Qed.

(* grow_and: the set falls into polygons that cover it without overlaps; the result
   covers the cells that the bloat of two of them covers *)
Theorem C54_grow_and : forall st i w e s n, reachable st -> 0 <= w -> 0 <= e -> 0 <= s -> 0 <= n ->
  exists polys, vector_polys (st i) = Some polys /\ forms polys (ps_covers (st i)) /\ Forall (fun p => p_holes p = []) polys /\
  match free_grow_and w e s n (st i) with
  | Ok t => ps_orient t = ps_orient (st i) /\
      forall x y, ps_covers t x y <-> at_least_two (fun p => grown w e s n (poly_cells p) x y) polys
  | Overflow => Exists (fun p => (forall B, ~ poly_fits B p) \/
      (exists x y, grown w e s n (poly_cells p) x y /\ ~ (is_int x /\ is_int (x + 1) /\ is_int y /\ is_int (y + 1))) \/
      INT_MAX < w + e \/ INT_MAX < s + n) polys
  | Undefined => False
  end.
Proof.
  intros st i w e s n H Hw He Hs Hn. destruct (free_grow_and_spec w e s n (st i) Hw He Hs Hn (reachable_ok st i H)) as [polys [E [F [N K]]]]. exists polys.
  split; [exact E|]. split; [exact F|]. split; [exact N|]. destruct (free_grow_and w e s n (st i)); [tauto|exact K|exact K].
Qed.
Print Assumptions C54_grow_and.
(* nothing outside the bloated region is covered, and without bloat nothing is *)
Theorem C54_within_bloat : forall st i w e s n t, reachable st -> 0 <= w -> 0 <= e -> 0 <= s -> 0 <= n -> free_grow_and w e s n (st i) = Ok t ->
  forall x y, ps_covers t x y -> grown w e s n (ps_covers (st i)) x y.
Proof.
  intros st i w e s n t H Hw He Hs Hn E x y C. destruct (C54_grow_and st i w e s n H Hw He Hs Hn) as [polys [_ [F [_ K]]]]. rewrite E in K. destruct K as [_ K]. apply K in C.
  destruct C as [a [p [b [q [c [El [[u [v [Gu Gv]]] _]]]]]]]. exists u, v. split; [|exact Gv]. apply (forms_cover polys _ p u v F (covers_dec (st i))); [rewrite El; apply in_elt|exact Gu].
Qed.
Print Assumptions C54_within_bloat.
Theorem C54_no_bloat : forall st i t, reachable st -> free_grow_and 0 0 0 0 (st i) = Ok t -> forall x y, ~ ps_covers t x y.
Proof.
  intros st i t H E x y C. destruct (C54_grow_and st i 0 0 0 0 H ltac:(lia) ltac:(lia) ltac:(lia) ltac:(lia)) as [polys [_ [F [_ K]]]]. rewrite E in K. destruct K as [_ K]. apply K in C.
  destruct C as [a [p [b [q [c [El [[u [v [Gu Gv]]] [u' [v' [Gu' Gv']]]]]]]]]].
  assert (E1 : u = x) by lia. assert (E2 : v = y) by lia. assert (E3 : u' = x) by lia. assert (E4 : v' = y) by lia. rewrite E1, E2 in Gu. rewrite E3, E4 in Gu'.
  exact (forms_disjoint polys _ a p b q c x y F (covers_dec (st i)) El Gu Gu').
Qed.
Print Assumptions C54_no_bloat.
Example C54_grow_and_demo : exists t, free_grow_and 2 2 0 1 (demo10_store 0%nat) = Ok t /\
  ps_count t 10 1 = 1 /\ ps_count t 10 5 = 1 /\ ps_count t 10 6 = 0 /\ ps_count t 10 0 = 0 /\ ps_count t 9 3 = 0 /\ ps_count t 11 3 = 0 /\ ps_count t 4 4 = 0.
Proof. eexists. split; [vm_compute; reflexivity|]. vm_compute. repeat split. Qed.

(* keep: the result covers the polygons within the limits, and no others. The lower
   limits of width and height are exclusive. *)
Theorem C55_keep : forall st i lim, reachable st ->
  exists polys, vector_polys (st i) = Some polys /\ forms polys (ps_covers (st i)) /\ Forall (fun p => p_holes p = []) polys /\
  match free_keep lim (st i) with
  | Ok t => ps_orient t = ps_orient (st i) /\
      forall x y, ps_covers t x y <-> exists p, In p polys /\ within lim p /\ poly_cells p x y
  | Overflow => forall B, ~ Forall (poly_fits B) polys
  | Undefined => False
  end.
Proof.
  intros st i lim H. destruct (free_keep_spec lim (st i) (reachable_ok st i H)) as [polys [E [F [N K]]]]. exists polys.
  split; [exact E|]. split; [exact F|]. split; [exact N|]. destruct (free_keep lim (st i)); [tauto|exact K|exact K].
Qed.
Print Assumptions C55_keep.
(* what is kept was there before *)
Theorem C55_keep_subset : forall st i lim t, reachable st -> free_keep lim (st i) = Ok t -> forall x y, ps_covers t x y -> ps_covers (st i) x y.
Proof.
  intros st i lim t H E x y C. destruct (C55_keep st i lim H) as [polys [_ [F [_ K]]]]. rewrite E in K. destruct K as [_ K]. apply K in C. destruct C as [p [Hp [W C]]].
  exact (forms_cover polys _ p x y F (covers_dec (st i)) Hp C).
Qed.
Print Assumptions C55_keep_subset.
Example C55_keep_demo : exists t u, free_keep (mk_limits 32 71 7 9 3 9) (demo10_store 0%nat) = Ok t /\ ps_count t 12 1 = 1 /\ ps_count t 0 0 = 0 /\
  free_keep (mk_limits 33 72 8 9 8 9) (demo10_store 0%nat) = Ok u /\ ps_count u 12 1 = 0 /\ ps_count u 0 0 = 1 /\ ps_count u 4 4 = 0.
Proof. eexists _, _. repeat (split; [vm_compute; reflexivity|]). vm_compute. reflexivity. Qed.
(* With inclusive limits, as the area has, it is false: a rectangle of width 8 is
   dropped by a minimum width of 8. *)
Theorem C55_keep_inclusive_refuted : exists st i lim polys t p x y, reachable st /\ vector_polys (st i) = Some polys /\ free_keep lim (st i) = Ok t /\
  In p polys /\ within_inclusive lim p /\ poly_cells p x y /\ ~ ps_covers t x y.
Proof.
  exists demo10_store, 0%nat, (mk_limits 32 32 8 8 4 4). eexists. eexists. exists (mk_poly90 [12; 1; 20; 5] []), 13, 2.
  split; [exact demo10_reachable|]. split; [vm_compute; reflexivity|]. split; [vm_compute; reflexivity|]. split; [right; left; reflexivity|]. split; [|split; [vm_compute; reflexivity|unfold ps_covers; vm_compute; discriminate]].
  exists (mk_rect 12 20 1 5), 32. split; [|split; [|cbn [min_width max_width min_height max_height min_area max_area xl xh yl yh]; lia]].
  - split; [intros p Hp; vm_compute in Hp; repeat (destruct Hp as [<-|Hp]; [cbn; lia|]); destruct Hp|].
    repeat split; [exists (mk_pt 12 1)|exists (mk_pt 20 1)|exists (mk_pt 12 1)|exists (mk_pt 12 5)]; (split; [vm_compute; tauto|reflexivity]).
  - assert (E : forall a b, poly_cells (mk_poly90 [12; 1; 20; 5] []) a b <-> Set90Spec.in_rect (mk_rect 12 20 1 5) a b = true).
    { intros a b. unfold poly_cells, poly_winding, Set90Spec.in_rect. cbn [p_outer p_holes xl xh yl yh]. unfold winding_number, ring_points. cbn [ring_points_from cyc_edges zsum fold_right crossing px py fst snd].
      unfold zsum. cbn. repeat match goal with |- context [if ?c then _ else _] => let Q := fresh in destruct c eqn:Q end; lia. }
    exists (fun a b => b2z (Set90Spec.in_rect (mk_rect 12 20 1 5) a b)), 12, 8%nat, 1, 4%nat. split; [|split; [|vm_compute; reflexivity]].
    + intros a b. rewrite E. destruct (Set90Spec.in_rect _ a b); cbn [b2z]; split; congruence.
    + intros a b. rewrite E. unfold Set90Spec.in_rect. cbn [xl xh yl yh]. lia.
Qed.
Print Assumptions C55_keep_inclusive_refuted.
