(* Proofs about the free functions on Manhattan polygon sets: bloat, shrink, resize,
   grow_and and keep. *)
From Verif Require Import Base Units Outcome Scan90Spec IsoSpec VertexLemmas GeoSpec Poly90Spec PolySpec Poly90Model Poly90Proofs Poly90Vertices Poly90Contains PolyCycle PolyArea
  BoolOpModel Set90Spec Set90Model Set90Lemmas Set90Proofs Set90Cor RectModel RectArith RectDist RectFormSpec RectFormModel RectFormProofs RectFormCor
  PolyModel PolyFormSpec PolyFormModel PolyFormColumns PolyFormCor TouchGet ResizeSpec ResizePolyModel ResizePolyTotals ResizePolyCor Free90Spec Free90Model Free90Proofs.
From Verif Require IvlProofs.
From Coq Require Import Arith.

Lemma clean_counts s : ps_ok s -> exists s', ps_clean s = Some s' /\ ps_ok s' /\ ps_orient s' = ps_orient s /\
  (forall x y, ps_count s' x y = 0 \/ ps_count s' x y = 1) /\ forall x y, ps_covers s' x y <-> ps_covers s x y.
Proof.
  intros O. destruct (ps_clean_spec s O) as [s' [E [O' [Eo [_ [_ [_ C]]]]]]]. exists s'. split; [exact E|]. split; [exact O'|]. split; [exact Eo|].
  assert (K : forall x y, ps_count s' x y = b2z (ps_count s x y >? 0)) by (intros x y; unfold ps_count; rewrite Eo; destruct (ps_orient s); cbn [wind]; apply C).
  split; intros x y; [rewrite K; apply b2z_01|]. unfold ps_covers. rewrite K. destruct (Z.gtb_spec (ps_count s x y) 0); cbn [b2z]; lia.
Qed.
Lemma assign_to_counts target q : ps_ok q -> (forall x y, ps_count q x y = 0 \/ ps_count q x y = 1) -> let r := ps_assign_to target q in
  ps_ok r /\ ps_orient r = ps_orient target /\ (forall x y, ps_count r x y = 0 \/ ps_count r x y = 1) /\ forall x y, ps_covers r x y <-> ps_covers q x y.
Proof.
  intros O C r. destruct (assign_to_spec target q O) as [A [B D]]. fold r in A, B, D. split; [exact A|]. split; [exact B|]. split; intros x y; [rewrite D; apply C|]. unfold ps_covers. rewrite D. reflexivity.
Qed.
Lemma assign_covers o t : ps_ok t -> forall x y, ps_covers (ps_assign_set o t) x y <-> ps_covers t x y.
Proof. intros O x y. destruct (assign_set_count o t O) as [_ [_ C]]. unfold ps_covers. rewrite C. reflexivity. Qed.

(* ---------- bloat, shrink and resize ---------- *)
Lemma free_bloat_spec w e s n t : 0 <= w -> 0 <= e -> 0 <= s -> 0 <= n -> ps_ok t ->
  match free_bloat w e s n t with
  | Ok t' => ps_ok t' /\ ps_orient t' = ps_orient t /\ (forall x y, ps_count t' x y = 0 \/ ps_count t' x y = 1) /\ forall x y, ps_covers t' x y <-> grown w e s n (ps_covers t) x y
  | Overflow => (exists x y, grown w e s n (ps_covers t) x y /\ ~ (is_int x /\ is_int (x + 1) /\ is_int y /\ is_int (y + 1))) \/ INT_MAX < w + e \/ INT_MAX < s + n
  | Undefined => False
  end.
Proof.
  intros Hw He Hs Hn O. unfold free_bloat. destruct (assign_set_count Horizontal t O) as [O1 _]. pose proof (assign_covers Horizontal t O) as C1.
  pose proof (bloat_spec w e s n (ps_assign_set Horizontal t) Hw He Hs Hn O1) as B. destruct (ps_bloat w e s n _) as [p| |]; cbn [obind].
  - destruct B as [O2 [_ [_ C2]]]. destruct (clean_counts p O2) as [q [E [O3 [_ [C3 C4]]]]]. rewrite E. cbn [lift obind]. destruct (assign_to_counts t q O3 C3) as [O4 [E4 [C5 C6]]].
    split; [exact O4|]. split; [exact E4|]. split; [exact C5|]. intros x y. rewrite C6, C4, C2. apply grown_iff. exact C1.
  - destruct B as [[x [y [G K]]]|B]; [left|right; exact B]. exists x, y. split; [|exact K]. apply (grown_iff _ _ _ _ _ _ C1). exact G.
  - exact B.
Qed.
Lemma free_shrink_spec w e s n t : 0 <= w -> 0 <= e -> 0 <= s -> 0 <= n -> ps_ok t ->
  match free_shrink w e s n t with
  | Ok t' => ps_ok t' /\ ps_orient t' = ps_orient t /\ (forall x y, ps_count t' x y = 0 \/ ps_count t' x y = 1) /\ forall x y, ps_covers t' x y <-> shrunk w e s n (ps_covers t) x y
  | Overflow => (exists x y, ps_covers t x y /\ ~ (INT_MIN <= x + 1 - e /\ x + w <= INT_MAX /\ INT_MIN <= y + 1 - n /\ y + s <= INT_MAX)) \/ INT_MAX < w + e \/ INT_MAX < s + n
  | Undefined => False
  end.
Proof.
  intros Hw He Hs Hn O. unfold free_shrink. destruct (assign_set_count Horizontal t O) as [O1 _]. pose proof (assign_covers Horizontal t O) as C1.
  pose proof (shrink_spec w e s n (ps_assign_set Horizontal t) Hw He Hs Hn O1) as B. destruct (ps_shrink w e s n _) as [p| |]; cbn [obind].
  - destruct B as [O2 [_ [_ C2]]]. destruct (clean_counts p O2) as [q [E [O3 [_ [C3 C4]]]]]. rewrite E. cbn [lift obind]. destruct (assign_to_counts t q O3 C3) as [O4 [E4 [C5 C6]]].
    split; [exact O4|]. split; [exact E4|]. split; [exact C5|]. intros x y. rewrite C6, C4, C2. apply shrunk_iff. exact C1.
  - destruct B as [[x [y [G K]]]|B]; [left|right; exact B]. exists x, y. split; [|exact K]. apply C1. exact G.
  - exact B.
Qed.
Lemma resized_iff w e s n (P Q : Z -> Z -> Prop) : (forall x y, P x y <-> Q x y) -> forall x y, resized w e s n P x y <-> resized w e s n Q x y.
Proof.
  intros E x y. unfold resized. destruct (0 <=? w + e), (0 <=? s + n).
  - apply grown_iff, E.
  - apply grown_iff. intros a b. apply shrunk_iff, E.
  - apply grown_iff. intros a b. apply shrunk_iff, E.
  - apply shrunk_iff, E.
Qed.
Lemma free_resize_spec w e s n t : ps_ok t ->
  match free_resize w e s n t with
  | Ok t' => ps_ok t' /\ ps_orient t' = ps_orient t /\ forall x y, ps_covers t' x y <-> resized w e s n (ps_covers t) x y
  | Overflow => ps_resize w e s n (ps_assign_set Horizontal t) = Overflow
  | Undefined => False
  end.
Proof.
  intros O. unfold free_resize. destruct (assign_set_count Horizontal t O) as [O1 _]. pose proof (assign_covers Horizontal t O) as C1.
  pose proof (resize_spec w e s n (ps_assign_set Horizontal t) O1) as B. destruct (ps_resize w e s n _) as [p| |]; cbn [obind]; [|reflexivity|exact B].
  destruct B as [O2 [_ C2]]. destruct (assign_to_spec t p O2) as [A1 [A2 A3]]. split; [exact A1|]. split; [exact A2|]. intros x y. unfold ps_covers at 1. rewrite A3. etransitivity; [apply C2|]. apply resized_iff, C1.
Qed.
Lemma assign_set_square B o t : in_square B t -> in_square B (ps_assign_set o t).
Proof.
  intros H v Hv. unfold ps_assign_set, ps_insert_range in Hv. destruct (ps_data t) as [|d l] eqn:E; [cbn in Hv; destruct Hv|]. rewrite <- E in *. cbn [ps_data ps_clear ps_new app] in Hv.
  destruct (orient_eqb _ _); [exact (H v Hv)|]. apply in_map_iff in Hv as [u [<- Hu]]. specialize (H u Hu). unfold vswap, vx, vy in *. cbn [fst snd] in *. lia.
Qed.
Lemma free_resize_total B w e s n t : ps_ok t -> in_square B t -> 0 <= B -> 6 * B <= INT_MAX -> - B <= w <= B -> - B <= e <= B -> - B <= s <= B -> - B <= n <= B -> free_resize w e s n t <> Overflow.
Proof.
  intros O H HB HM Bw Be Bs Bn E. pose proof (free_resize_spec w e s n t O) as K. rewrite E in K. destruct (assign_set_count Horizontal t O) as [O1 _].
  exact (resize_total B w e s n _ O1 (assign_set_square B Horizontal t H) HB HM Bw Be Bs Bn K).
Qed.

(* ---------- grow_and ---------- *)
Lemma two_cons {A : Type} (Q : A -> Prop) p l : at_least_two Q (p :: l) <-> (Q p /\ Exists Q l) \/ at_least_two Q l.
Proof.
  split.
  - intros [a [u [b [v [c [E [Hu Hv]]]]]]]. destruct a as [|a0 a].
    + left. cbn [app] in E. assert (Eu : p = u) by congruence. assert (El : l = b ++ v :: c) by congruence. subst u. split; [exact Hu|]. apply Exists_exists. exists v. split; [rewrite El; apply in_elt|exact Hv].
    + right. exists a, u, b, v, c. cbn [app] in E. split; [congruence|]. split; assumption.
  - intros [[Hp H]|[a [u [b [v [c [E [Hu Hv]]]]]]]].
    + apply Exists_exists in H as [v [Hv Qv]]. apply in_split in Hv as [b [c ->]]. exists [], p, b, v, c. split; [reflexivity|]. split; assumption.
    + exists (p :: a), u, b, v, c. split; [rewrite E; reflexivity|]. split; assumption.
Qed.
Lemma insert_set_count s t : ps_ok s -> ps_ok t -> ps_ok (ps_insert_set false s t) /\ ps_orient (ps_insert_set false s t) = ps_orient s /\
  forall x y, ps_count (ps_insert_set false s t) x y = ps_count s x y + ps_count t x y.
Proof.
  intros Os Ot. unfold ps_insert_set. destruct (ps_insert_range_spec s (ps_data t) (ps_orient t) Os (ok_closed _ Ot) (ok_int _ Ot)) as [A [B [C _]]]. split; [exact A|]. split; [exact B|]. intros x y. unfold ps_count. rewrite B, C. reflexivity.
Qed.
Lemma insert_formed s p : ps_ok s -> formed p -> match ps_insert_poly s p false with
  | Ok s' => ps_ok s' /\ ps_orient s' = ps_orient s /\ forall x y, ps_count s' x y = ps_count s x y + poly_winding p x y
  | Overflow => forall B, ~ poly_fits B p
  | Undefined => False end.
Proof.
  intros O F. pose proof (ps_insert_poly_spec s p false O (formed_ok p F)) as K. destruct (ps_insert_poly s p false) as [s'| |] eqn:E; [| |exact K].
  - destruct K as [O' [Eo C]]. split; [exact O'|]. split; [exact Eo|]. intros x y. unfold ps_count. rewrite Eo, C, (formed_count p x y F). lia.
  - intros B HB. exact (insert_poly_fits s p B HB E).
Qed.
Lemma new_count o x y : ps_count (ps_new o) x y = 0.
Proof. unfold ps_count. cbn [ps_new ps_orient ps_data]. apply wind_nil. Qed.
Definition too_large (w e s n : Z) (p : poly90) : Prop :=
  (forall B, ~ poly_fits B p) \/ (exists x y, grown w e s n (poly_cells p) x y /\ ~ (is_int x /\ is_int (x + 1) /\ is_int y /\ is_int (y + 1))) \/ INT_MAX < w + e \/ INT_MAX < s + n.
Lemma grow_one_spec w e s n o ps p : 0 <= w -> 0 <= e -> 0 <= s -> 0 <= n -> ps_ok ps -> formed p ->
  match grow_one w e s n o ps p with
  | Ok ps' => ps_ok ps' /\ ps_orient ps' = ps_orient ps /\ exists k, (forall x y, ps_count ps' x y = ps_count ps x y + k x y) /\
      forall x y, (k x y = 0 \/ k x y = 1) /\ (k x y = 1 <-> grown w e s n (poly_cells p) x y)
  | Overflow => too_large w e s n p
  | Undefined => False
  end.
Proof.
  intros Hw He Hs Hn O F. unfold grow_one, too_large. pose proof (insert_formed (ps_new o) p (ps_new_ok o) F) as I. destruct (ps_insert_poly (ps_new o) p false) as [tmp| |]; cbn [obind]; [|left; exact I|exact I].
  destruct I as [O1 [_ C1]]. assert (P1 : forall x y, ps_covers tmp x y <-> poly_cells p x y).
  { intros x y. unfold ps_covers, poly_cells. rewrite C1, new_count. destruct F as [_ [_ F]]. destruct (F x y) as [K|K]; rewrite K; lia. }
  pose proof (free_bloat_spec w e s n tmp Hw He Hs Hn O1) as B. destruct (free_bloat w e s n tmp) as [tmp1| |]; cbn [obind]; [| |exact B].
  - destruct B as [O2 [_ [_ C2]]]. destruct (clean_counts tmp1 O2) as [tmp2 [E [O3 [_ [C3 C4]]]]]. rewrite E. cbn [lift obind]. destruct (insert_set_count ps tmp2 O O3) as [A [A2 A3]].
    split; [exact A|]. split; [exact A2|]. exists (ps_count tmp2). split; [exact A3|]. intros x y. split; [apply C3|]. rewrite <- (grown_iff _ _ _ _ _ _ P1 x y), <- C2, <- C4. unfold ps_covers. destruct (C3 x y); lia.
  - right. destruct B as [[x [y [G K]]]|B]; [left|right; exact B]. exists x, y. split; [|exact K]. apply (grown_iff _ _ _ _ _ _ P1). exact G.
Qed.
Lemma grow_fold w e s n o polys : 0 <= w -> 0 <= e -> 0 <= s -> 0 <= n -> Forall formed polys -> forall ps, ps_ok ps ->
  match fold_outcome (grow_one w e s n o) polys ps with
  | Ok ps' => ps_ok ps' /\ ps_orient ps' = ps_orient ps /\ exists k, (forall x y, ps_count ps' x y = ps_count ps x y + k x y) /\
      forall x y, let Q := fun p => grown w e s n (poly_cells p) x y in 0 <= k x y /\ (1 <= k x y <-> Exists Q polys) /\ (2 <= k x y <-> at_least_two Q polys)
  | Overflow => Exists (too_large w e s n) polys
  | Undefined => False
  end.
Proof.
  intros Hw He Hs Hn F. induction polys as [|p polys IH]; intros ps O; cbn [fold_outcome].
  - split; [exact O|]. split; [reflexivity|]. exists (fun _ _ => 0). split; [intros x y; lia|]. intros x y. split; [lia|]. split; (split; [lia|]).
    + intros H. inversion H.
    + intros [a [u [b [v [c [E _]]]]]]. destruct a; discriminate.
  - inversion F as [|? ? Fp Fs]; subst. pose proof (grow_one_spec w e s n o ps p Hw He Hs Hn O Fp) as G. destruct (grow_one w e s n o ps p) as [ps1| |]; cbn [obind]; [|left; exact G|exact G].
    destruct G as [O1 [E1 [k [C K]]]]. specialize (IH Fs ps1 O1). destruct (fold_outcome (grow_one w e s n o) polys ps1) as [ps2| |]; [|right; exact IH|exact IH].
    destruct IH as [O2 [E2 [k' [C' K']]]]. split; [exact O2|]. split; [congruence|]. exists (fun x y => k x y + k' x y). split; [intros x y; rewrite C', C; lia|]. intros x y. set (Q := fun p => grown w e s n (poly_cells p) x y).
    specialize (K x y). specialize (K' x y). cbv zeta in K'. fold Q in K'. destruct K as [K1 K2]. destruct K' as [N [L1 L2]]. change (grown w e s n (poly_cells p) x y) with (Q p) in K2.
    split; [lia|]. split.
    + rewrite Exists_cons, <- K2, <- L1. lia.
    + rewrite two_cons, <- K2, <- L1, <- L2. lia.
Qed.
Lemma empty_count s x y : ps_data s = [] -> ps_count s x y = 0.
Proof. intros E. unfold ps_count. rewrite E. apply wind_nil. Qed.
Lemma free_self_intersect_spec t : ps_ok t -> exists t', free_self_intersect t = Some t' /\ ps_ok t' /\ ps_orient t' = ps_orient t /\
  forall x y, ps_count t' x y = b2z (ps_count t x y >? 1).
Proof.
  intros O. unfold free_self_intersect. destruct (assign_set_count Horizontal t O) as [O1 [E1 C1]]. destruct (ps_self_intersect_spec _ O1) as [p [E [O2 [E2 [_ C2]]]]]. rewrite E. cbn [bind].
  eexists. split; [reflexivity|]. destruct (assign_to_spec t p O2) as [A1 [A2 A3]]. split; [exact A1|]. split; [exact A2|]. intros x y. rewrite A3. unfold ps_count at 1. rewrite E2, C2.
  change (wind (ps_orient (ps_assign_set Horizontal t)) (ps_data (ps_assign_set Horizontal t)) x y) with (ps_count (ps_assign_set Horizontal t) x y).
  destruct (ps_dirty (ps_assign_set Horizontal t)) eqn:D; [rewrite C1; reflexivity|].
  unfold ps_assign_set, ps_insert_range in D. destruct (ps_data t) eqn:Ed; [|discriminate]. rewrite C1, (empty_count t x y Ed). reflexivity.
Qed.
Lemma free_grow_and_spec w e s n t : 0 <= w -> 0 <= e -> 0 <= s -> 0 <= n -> ps_ok t ->
  exists polys, vector_polys t = Some polys /\ forms polys (ps_covers t) /\ Forall (fun p => p_holes p = []) polys /\
  match free_grow_and w e s n t with
  | Ok t' => ps_ok t' /\ ps_orient t' = ps_orient t /\
      forall x y, ps_covers t' x y <-> at_least_two (fun p => grown w e s n (poly_cells p) x y) polys
  | Overflow => Exists (too_large w e s n) polys
  | Undefined => False
  end.
Proof.
  intros Hw He Hs Hn O. destruct (vector_polys_spec t O) as [polys [E [F H]]]. exists polys. split; [exact E|]. split; [exact F|]. split; [exact H|].
  unfold free_grow_and. rewrite E. cbn [lift obind]. cbv zeta. pose proof (grow_fold w e s n (ps_orient t) polys Hw He Hs Hn (proj1 F) (ps_new (ps_orient t)) (ps_new_ok _)) as G.
  destruct (fold_outcome _ polys _) as [ps| |]; cbn [obind]; [|exact G|exact G]. destruct G as [O1 [_ [k [C K]]]].
  destruct (free_self_intersect_spec ps O1) as [ps1 [E1 [O2 [_ C2]]]]. rewrite E1. cbn [lift obind]. destruct (assign_to_spec (ps_clear t) ps1 O2) as [A1 [A2 A3]].
  split; [exact A1|]. split; [rewrite A2; reflexivity|]. intros x y. destruct (K x y) as [_ [_ L]]. rewrite <- L. unfold ps_covers. rewrite A3, C2, C, new_count. destruct (Z.gtb_spec (0 + k x y) 1); cbn [b2z]; lia.
Qed.

(* ---------- keep ---------- *)
Lemma spans_unique l r q : spans l r -> spans l q -> r = q.
Proof.
  intros [A [[p1 [B1 C1]] [[p2 [B2 C2]] [[p3 [B3 C3]] [p4 [B4 C4]]]]]] [A' [[q1 [B1' C1']] [[q2 [B2' C2']] [[q3 [B3' C3']] [q4 [B4' C4']]]]]].
  destruct r as [a b c d], q as [a' b' c' d']. cbn [xl xh yl yh] in *.
  pose proof (A q1 B1'). pose proof (A q2 B2'). pose proof (A q3 B3'). pose proof (A q4 B4'). pose proof (A' p1 B1). pose proof (A' p2 B2). pose proof (A' p3 B3). pose proof (A' p4 B4). f_equal; lia.
Qed.
Lemma zsum_upper {A : Type} (f : A -> Z) c l : (forall a, In a l -> f a <= c) -> zsum f l <= Z.of_nat (length l) * c.
Proof.
  induction l as [|a l IH]; intros H; [reflexivity|]. rewrite zsum_cons. cbn [length]. specialize (IH (fun b Hb => H b (or_intror Hb))). specialize (H a (or_introl eq_refl)). lia.
Qed.
Lemma ring_coords l p : Nat.Even (length l) -> In p (ring_points l) -> In (px p) l /\ In (py p) l.
Proof.
  intros [n E] Hp. destruct (even_flat n l E) as [cs [El _]]. destruct cs as [|[a b] cs]; [subst l; destruct Hp|].
  replace (ring_points l) with (rp a ((a, b) :: cs)) in Hp by (rewrite El, <- ring_points_flat; reflexivity).
  apply rp_coords in Hp. rewrite <- El in Hp. destruct Hp as [[->|Hx] Hy]; (split; [|exact Hy]); [rewrite El; left; reflexivity|exact Hx].
Qed.
Lemma ring_cells_fit B l : ccw_ring l -> ring_fits B l -> shoelace2 (ring_points l) < 2 * 2 ^ 63.
Proof.
  intros [S W] [F [HB K]]. pose proof S as [_ [Ev [_ Nz]]]. pose proof (ring_rectilinear l Ev Nz) as R. destruct (Z_of_nat_complete (2 * B) ltac:(lia)) as [N EN].
  assert (I : Forall (inside_box (- B) N (- B) N) (ring_points l)).
  { apply Forall_forall. intros p Hp. apply (ring_coords l p Ev) in Hp as [H1 H2]. rewrite Forall_forall in F. apply F in H1, H2. unfold inside_box. lia. }
  pose proof (winding_area _ _ _ _ _ R I) as A. assert (U : box_sum (- B) N (- B) N (winding_number (ring_points l)) <= Z.of_nat N * (Z.of_nat N * 1)).
  { unfold box_sum. assert (L : Z.of_nat (length (zrange (- B) N)) = Z.of_nat N) by (unfold zrange; rewrite map_length, seq_length; reflexivity). eapply Z.le_trans; [apply (zsum_upper _ (Z.of_nat N * 1))|rewrite L; lia]. intros i _. eapply Z.le_trans; [apply (zsum_upper _ 1)|rewrite L; lia]. intros j _. destruct (W i j); lia. }
  nia.
Qed.
Lemma ring_area_spec l : ccw_ring l -> exists N, cell_count (fun x y => winding_number (ring_points l) x y = 1) N /\ 0 <= N /\
  match ring_area l with Ok a => a = N | Overflow => forall B, ~ ring_fits B l | Undefined => False end.
Proof.
  intros C. pose proof C as [S W]. pose proof S as [_ [Ev [_ Nz]]]. pose proof (ring_rectilinear l Ev Nz) as R. destruct (strict_box l S) as [n I].
  pose proof (winding_area _ _ _ _ _ R I) as A. set (N := box_sum INT_MIN n INT_MIN n (winding_number (ring_points l))) in *. exists N.
  assert (N0 : 0 <= N) by (unfold N, box_sum; apply zsum_nonneg; intros i _; apply zsum_nonneg; intros j _; destruct (W i j); lia).
  split; [|split; [exact N0|]].
  - exists (winding_number (ring_points l)), INT_MIN, n, INT_MIN, n. split; [|split; [|reflexivity]].
    + intros i j. split; [intros H; exact H|]. destruct (W i j) as [K|K]; [intros _; exact K|intros H; contradiction].
    + intros i j H. destruct (Z_le_dec INT_MIN i) as [C1|C1]; [|rewrite (winding_outside INT_MIN n INT_MIN n _ _ _ R I) in H by lia; lia].
      destruct (Z_lt_dec i (INT_MIN + Z.of_nat n)) as [C2|C2]; [|rewrite (winding_outside INT_MIN n INT_MIN n _ _ _ R I) in H by lia; lia].
      destruct (Z_le_dec INT_MIN j) as [C3|C3]; [|rewrite (winding_outside INT_MIN n INT_MIN n _ _ _ R I) in H by lia; lia].
      destruct (Z_lt_dec j (INT_MIN + Z.of_nat n)) as [C4|C4]; [|rewrite (winding_outside INT_MIN n INT_MIN n _ _ _ R I) in H by lia; lia]. lia.
  - unfold ring_area. rewrite (ctp_ring_points l Ev Nz). destruct (points_area (ring_points l)) as [v| |] eqn:E; cbn [obind].
    + pose proof (points_area_eq _ _ R E) as V. destruct (Z.ltb_spec v 0) as [K|K]; [|lia]. unfold chk64. destruct ((- 2 ^ 63 <=? v * -1) && (v * -1 <? 2 ^ 63)) eqn:Ek; [lia|].
      intros B HB. pose proof (ring_cells_fit B l C HB). lia.
    + intros B [F [HB K]]. assert (HBB : 0 <= 8 * (B * B)) by nia. destruct (points_area_fits B (ring_points l) HB) as [v Ev'].
      * apply Forall_forall. intros p Hp. apply (ring_coords l p Ev) in Hp as [H1 H2]. rewrite Forall_forall in F. apply F in H1, H2. split; assumption.
      * rewrite <- (ctp_ring_points l Ev Nz). destruct l as [|x [|y l]]; cbn [compact_to_points length] in *; try nia. pose proof (ctp_len x l (mk_pt x y) Horizontal). nia.
      * congruence.
    + exact (points_area_defined _ E).
Qed.
Lemma spans_int l box : Forall is_int l -> Nat.Even (length l) -> spans (ring_points l) box -> ivl_int (r_get box Horizontal) /\ ivl_int (r_get box Vertical).
Proof.
  intros F Ev [_ [[p1 [B1 C1]] [[p2 [B2 C2]] [[p3 [B3 C3]] [p4 [B4 C4]]]]]]. rewrite Forall_forall in F.
  apply (ring_coords l _ Ev) in B1, B2, B3, B4. destruct B1 as [B1 _], B2 as [B2 _], B3 as [_ B3], B4 as [_ B4]. apply F in B1, B2, B3, B4. rewrite C1 in B1. rewrite C2 in B2. rewrite C3 in B3. rewrite C4 in B4. repeat split; try apply B1; try apply B2; try apply B3; try apply B4.
Qed.
Lemma keep_test_spec lim p : formed p -> p_holes p = [] ->
  match keep_test lim p with Ok b => b = true <-> within lim p | Overflow => forall B, ~ poly_fits B p | Undefined => False end.
Proof.
  intros F H. pose proof F as [C [_ _]]. pose proof C as [S _]. pose proof S as [Fi [Ev [L Nz]]]. unfold keep_test. rewrite (ctp_ring_points _ Ev Nz).
  assert (Ne : ring_points (p_outer p) <> []) by (clear - L; destruct (p_outer p) as [|x [|y [|z l]]]; cbn [length] in L; try lia; unfold ring_points; cbn [ring_points_from]; intros E; discriminate E).
  destruct (proj2 (points_extents_spec (mk_rect 0 0 0 0) (ring_points (p_outer p))) Ne) as [_ T]. set (box := snd (points_extents (mk_rect 0 0 0 0) (ring_points (p_outer p)))) in *.
  change (spans (ring_points (p_outer p)) box) in T. destruct (spans_int _ _ Fi Ev T) as [I1 I2].
  unfold r_delta. rewrite (IvlProofs.delta_spec _ I1). cbn [obind]. rewrite (IvlProofs.delta_spec _ I2).
  change (hi (r_get box Horizontal) - lo (r_get box Horizontal)) with (xh box - xl box). change (hi (r_get box Vertical) - lo (r_get box Vertical)) with (yh box - yl box).
  destruct (ring_area_spec _ C) as [N [CN [_ A]]].
  assert (CP : cell_count (poly_cells p) N).
  { assert (E : forall x y, winding_number (ring_points (p_outer p)) x y = poly_winding p x y) by (intros x y; unfold poly_winding; rewrite H; unfold zsum; cbn [fold_right]; lia).
    destruct CN as [f [x [n [y [m [G1 [G2 G3]]]]]]]. exists f, x, n, y, m. unfold poly_cells. split; [intros i j; rewrite <- E; apply G1|]. split; [intros i j; rewrite <- E; apply G2|exact G3]. }
  assert (W : within lim p <-> (min_width lim < xh box - xl box <= max_width lim /\ min_height lim < yh box - yl box <= max_height lim /\ min_area lim <= N <= max_area lim)).
  { split; [|intros K; exists box, N; split; [exact T|]; split; [exact CP|exact K]]. intros [b [M [Tb [CM K]]]]. rewrite (spans_unique _ _ _ T Tb). rewrite (cell_count_unique (poly_cells p) N M) by (try assumption; intros x y; unfold poly_cells; destruct (Z.eq_dec (poly_winding p x y) 1); auto). exact K. }
  destruct ((xh box - xl box >? min_width lim) && (xh box - xl box <=? max_width lim)) eqn:E1; [cbn [obind]|split; [discriminate|rewrite W; lia]].
  destruct ((yh box - yl box >? min_height lim) && (yh box - yl box <=? max_height lim)) eqn:E2; [|split; [discriminate|rewrite W; lia]].
  destruct (ring_area (p_outer p)) as [a| |]; cbn [obind]; [|intros B [HB _]; exact (A B HB)|exact A]. subst a. rewrite W. lia.
Qed.
Lemma keep_filter lim polys : Forall formed polys -> Forall (fun p => p_holes p = []) polys ->
  match filter_outcome (keep_test lim) polys with
  | Ok kept => exists l, kept = filter l polys /\ forall p, In p polys -> (l p = true <-> within lim p)
  | Overflow => forall B, ~ Forall (poly_fits B) polys
  | Undefined => False
  end.
Proof.
  intros F H. assert (G : match filter_outcome (keep_test lim) polys with
    | Ok kept => let l := fun p => match keep_test lim p with Ok b => b | _ => false end in kept = filter l polys /\ forall p, In p polys -> (l p = true <-> within lim p)
    | Overflow => forall B, ~ Forall (poly_fits B) polys | Undefined => False end).
  { induction polys as [|p polys IH]; cbn [filter_outcome]; [split; [reflexivity|intros p []]|]. inversion F as [|? ? F1 F2]; subst. inversion H as [|? ? H1 H2]; subst. specialize (IH F2 H2).
    pose proof (keep_test_spec lim p F1 H1) as K. destruct (keep_test lim p) as [b| |] eqn:E; cbn [obind]; [|intros B Q; inversion Q; subst; eapply K; eassumption|exact K].
    destruct (filter_outcome (keep_test lim) polys) as [r| |]; cbn [obind]; [|intros B Q; inversion Q; subst; eapply IH; eassumption|exact IH].
    cbv zeta in IH. destruct IH as [-> IH]. cbv zeta. split; [cbn [filter]; rewrite E; reflexivity|]. intros q [<-|Hq]; [rewrite E; exact K|apply IH; exact Hq]. }
  destruct (filter_outcome (keep_test lim) polys); [|exact G|exact G]. eexists. exact G.
Qed.
Lemma insert_all polys : forall s, ps_ok s -> Forall formed polys ->
  match fold_outcome (fun s p => ps_insert_poly s p false) polys s with
  | Ok t => ps_ok t /\ ps_orient t = ps_orient s /\ forall x y, ps_count t x y = ps_count s x y + polys_winding polys x y
  | Overflow => forall B, ~ Forall (poly_fits B) polys
  | Undefined => False
  end.
Proof.
  induction polys as [|p polys IH]; intros s O F; cbn [fold_outcome].
  - split; [exact O|]. split; [reflexivity|]. intros x y. unfold polys_winding, zsum. cbn [fold_right]. lia.
  - inversion F as [|? ? F1 F2]; subst. pose proof (insert_formed s p O F1) as K. destruct (ps_insert_poly s p false) as [s1| |]; cbn [obind]; [|intros B Q; inversion Q; subst; eapply K; eassumption|exact K].
    destruct K as [O1 [E1 C1]]. specialize (IH s1 O1 F2). destruct (fold_outcome _ polys s1) as [t| |]; [|intros B Q; inversion Q; subst; eapply IH; eassumption|exact IH].
    destruct IH as [O2 [E2 C2]]. split; [exact O2|]. split; [congruence|]. intros x y. rewrite C2, C1. unfold polys_winding. rewrite zsum_cons. lia.
Qed.
Lemma polys_pos polys x y : Forall formed polys -> (0 < polys_winding polys x y <-> exists p, In p polys /\ poly_cells p x y) /\ 0 <= polys_winding polys x y.
Proof.
  intros F. unfold polys_winding, poly_cells. induction polys as [|p polys IH]; [split; [split; [cbn; lia|intros [p [[] _]]]|cbn; lia]|]. inversion F as [|? ? F1 F2]; subst. destruct (IH F2) as [I1 I2]. rewrite zsum_cons. destruct F1 as [_ [_ F1]].
  split; [|destruct (F1 x y); lia]. split.
  - intros K. destruct (F1 x y) as [E|E]; [|exists p; split; [left; reflexivity|exact E]]. destruct (proj1 I1 ltac:(lia)) as [q [Hq Eq]]. exists q. split; [right; exact Hq|exact Eq].
  - intros [q [[<-|Hq] Eq]]; [lia|]. assert (0 < zsum (fun p => poly_winding p x y) polys) by (apply I1; exists q; split; assumption). destruct (F1 x y); lia.
Qed.
Lemma fresh_ok o : ps_ok (mk_ps o [] true true).
Proof. destruct (ps_new_ok o) as [A B _ _]. split; [exact A|exact B|discriminate|discriminate]. Qed.
Lemma free_keep_spec lim t : ps_ok t ->
  exists polys, vector_polys t = Some polys /\ forms polys (ps_covers t) /\ Forall (fun p => p_holes p = []) polys /\
  match free_keep lim t with
  | Ok t' => ps_ok t' /\ ps_orient t' = ps_orient t /\
      forall x y, ps_covers t' x y <-> exists p, In p polys /\ within lim p /\ poly_cells p x y
  | Overflow => forall B, ~ Forall (poly_fits B) polys
  | Undefined => False
  end.
Proof.
  intros O. destruct (vector_polys_spec t O) as [polys [E [F H]]]. exists polys. split; [exact E|]. split; [exact F|]. split; [exact H|].
  unfold free_keep. rewrite E. cbn [lift obind]. pose proof (keep_filter lim polys (proj1 F) H) as K. destruct (filter_outcome _ polys) as [kept| |]; cbn [obind]; [|exact K|exact K].
  destruct K as [l [-> Kl]].
  assert (Fk : Forall formed (filter l polys)) by (apply Forall_forall; intros q Hq; apply filter_In in Hq as [Hq _]; destruct F as [F _]; rewrite Forall_forall in F; apply F; exact Hq).
  assert (G : forall x y, (exists p, In p (filter l polys) /\ poly_cells p x y) <-> exists p, In p polys /\ within lim p /\ poly_cells p x y).
  { intros x y. split; intros [p Hp]; exists p; rewrite filter_In in *.
    - destruct Hp as [[P1 P2] P3]. split; [exact P1|]. split; [apply Kl; assumption|exact P3].
    - destruct Hp as [P1 [P2 P3]]. split; [split; [exact P1|apply Kl; assumption]|exact P3]. }
  destruct (filter l polys) as [|p0 k0] eqn:Ek.
  - split; [apply ps_clear_ok|]. split; [reflexivity|]. intros x y. rewrite <- G. unfold ps_covers. rewrite empty_count by reflexivity. split; [lia|intros [p [[] _]]].
  - rewrite <- Ek in *. pose proof (insert_all _ _ (fresh_ok (ps_orient t)) Fk) as I. destruct (fold_outcome _ _ _) as [t'| |]; [| |exact I].
    + destruct I as [O1 [E1 C1]]. split; [exact O1|]. split; [exact E1|]. intros x y. rewrite <- G. unfold ps_covers. rewrite C1, empty_count by reflexivity. rewrite <- (proj1 (polys_pos _ x y Fk)). lia.
    + intros B Q. apply (I B). apply Forall_forall. intros q Hq. apply filter_In in Hq as [Hq _]. rewrite Forall_forall in Q. apply Q. exact Hq.
Qed.

(* ---------- the area does not overflow ---------- *)
Lemma cells_in_square B P N : (forall x y, P x y \/ ~ P x y) -> (forall x y, P x y -> - B <= x < B /\ - B <= y < B) -> 0 <= B -> cell_count P N -> N <= 2 * B * (2 * B).
Proof.
  intros Dec H HB [f [x [n [y [m [F [I ->]]]]]]].
  assert (D : forall a b, f a b <> 0 -> P a b) by (intros a b K; destruct (Dec a b) as [C|C]; [exact C|exfalso; apply K; apply F; exact C]).
  set (X := Z.min x (- B)). set (Y := Z.min y (- B)). set (a := Z.to_nat (Z.max (x + Z.of_nat n) B - X)). set (b := Z.to_nat (Z.max (y + Z.of_nat m) B - Y)). set (M := Z.to_nat (2 * B)).
  rewrite <- (box_sum_mono_ext x n y m f X a Y b) by (try (intros i j K; apply I, D, K); unfold X, Y, a, b; lia).
  rewrite (box_sum_mono_ext (- B) M (- B) M f X a Y b) by (try (intros i j K; apply D, H in K; unfold M; lia); unfold X, Y, a, b, M; lia).
  assert (L : Z.of_nat (length (zrange (- B) M)) = 2 * B) by (unfold zrange, M; rewrite map_length, seq_length; lia).
  unfold box_sum. eapply Z.le_trans; [apply (zsum_upper _ (2 * B))|rewrite L; lia]. intros i _. eapply Z.le_trans; [apply (zsum_upper _ 1)|rewrite L; lia]. intros j _.
  destruct (F i j) as [F1 F2]. destruct (Dec i j) as [C|C]; [rewrite (F1 C)|rewrite (F2 C)]; lia.
Qed.
Lemma covers_dec s x y : ps_covers s x y \/ ~ ps_covers s x y.
Proof. unfold ps_covers. lia. Qed.
Lemma free_area_total B t : ps_ok t -> in_square B t -> 0 <= B <= 2 ^ 30 -> exists a, free_area t = Ok a.
Proof.
  intros O Q HB. destruct (free_area_spec t O) as [N [C ->]]. pose proof (cells_in_square B _ N (covers_dec t) (fun x y K => covers_square B t x y O Q K) ltac:(lia) C) as L.
  exists N. destruct (Z.ltb_spec N (2 ^ 63)) as [K|K]; [reflexivity|]. exfalso. assert (2 * B * (2 * B) <= 2 ^ 31 * 2 ^ 31) by nia. lia.
Qed.
(* ---------- corollaries of grow_and ---------- *)
Lemma forms_disjoint polys P a p b q c x y : forms polys P -> (forall x y, P x y \/ ~ P x y) -> polys = a ++ p :: b ++ q :: c -> poly_cells p x y -> poly_cells q x y -> False.
Proof.
  intros [F C] Dec E Hp Hq. destruct (C x y) as [C1 C2]. assert (L : polys_winding polys x y <= 1) by (destruct (Dec x y) as [D|D]; [rewrite (C1 D)|rewrite (C2 D)]; lia).
  assert (Nn : forall l, Forall formed l -> 0 <= polys_winding l x y) by (intros l Fl; apply polys_pos; exact Fl). rewrite E in F, L. unfold polys_winding in *. rewrite Forall_app in F. destruct F as [Fa F]. inversion F as [|? ? _ F']; subst. rewrite Forall_app in F'. destruct F' as [Fb F']. inversion F' as [|? ? _ Fc]; subst.
  rewrite zsum_app, zsum_cons, zsum_app, zsum_cons in L. pose proof (Nn a Fa). pose proof (Nn b Fb). pose proof (Nn c Fc). unfold poly_cells in *. lia.
Qed.
Lemma forms_cover polys P p x y : forms polys P -> (forall x y, P x y \/ ~ P x y) -> In p polys -> poly_cells p x y -> P x y.
Proof.
  intros [F C] Dec Hp Hx. destruct (Dec x y) as [D|D]; [exact D|]. destruct (C x y) as [_ C2]. specialize (C2 D). assert (0 < polys_winding polys x y) by (apply polys_pos; [exact F|]; exists p; split; assumption). lia.
Qed.
