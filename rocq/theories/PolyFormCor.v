(* get_polygons of polygon sets, and inserting the polygons again. *)
From Verif Require Import Base Units Outcome Scan90Spec VertexLemmas Poly90Spec PolySpec Poly90Model Poly90Proofs PolyCycle Poly90Vertices Poly90Contains
  Set90Spec Set90Model Set90Lemmas Set90Proofs Set90History Set90Cor RectFormProofs RectFormCor
  PolyFormGaps PolyFormModel PolyFormLemmas PolyFormSpec PolyFormRead PolyFormColumns.
From Coq Require Import Arith.

(* ---------- strict rings ---------- *)
Lemma rp_prop2 fx y0 cs : cs <> [] -> Forall (fun e : point * point => fst e <> snd e) (pedges (rp fx cs ++ [mk_pt fx y0])) -> prop2 (flat cs ++ [fx; y0]).
Proof.
  induction cs as [|[x y] cs IH]; intros N F; [congruence|]. change (flat ((x, y) :: cs)) with (x :: y :: flat cs).
  destruct cs as [|[x' y'] cs].
  - cbn [rp app pedges] in F. inversion F as [|? ? F1 F2]; subst. inversion F2 as [|? ? F3 F4]; subst. cbn [fst snd] in *. cbn [flat flat_map app]. rewrite !prop2_cons3. cbn. repeat split; congruence.
  - cbn [rp app pedges] in F. inversion F as [|? ? F1 F2]; subst. inversion F2 as [|? ? F3 F4]; subst. cbn [fst snd] in *.
    assert (IH' : prop2 (flat ((x', y') :: cs) ++ [fx; y0])) by (apply IH; [discriminate|exact F4]). change (flat ((x', y') :: cs)) with (x' :: y' :: flat cs) in *. cbn [app] in *. rewrite prop2_cons3. split; [congruence|]. split; [|exact IH']. congruence.
Qed.
Lemma prop2_nth l : prop2 l -> forall j a, nth_error l j = Some a -> nth_error l (j + 2) <> Some a.
Proof.
  induction l as [|b l IH]; intros P j a E; [destruct j; discriminate|]. destruct j as [|j]; cbn [nth_error Nat.add] in *.
  - injection E as ->. destruct P as [P _]. destruct l as [|c [|d l]]; cbn [nth_error]; try discriminate. intros K. congruence.
  - apply IH; [exact (prop2_tl _ _ P)|exact E].
Qed.
Lemma strict_proper l : strict_ring l -> ring_proper l.
Proof.
  intros [I [E [L4 Nz]]]. split; [exact E|]. pose proof E as [n E']. destruct (even_flat n l E') as [cs [El _]].
  destruct cs as [|[a b] cs]; [subst l; cbn in L4; lia|].
  assert (P : prop2 (l ++ [a; b])).
  { rewrite El. apply rp_prop2; [discriminate|]. unfold no_zero_edge in Nz. rewrite El in Nz. replace (ring_points (flat ((a, b) :: cs))) with (rp a ((a, b) :: cs)) in Nz by (rewrite <- ring_points_flat; reflexivity).
    cbn [rp] in Nz. rewrite cyc_pedges in Nz. exact Nz. }
  split.
  - change (flat ((a, b) :: cs)) with (a :: b :: flat cs) in El. destruct (exists_last (l := flat cs)) as [u [yn Eu]]; [intros K; rewrite El, K in L4; cbn in L4; lia|].
    destruct (exists_last (l := u)) as [m [xn Em]]; [intros K; rewrite El, Eu, K in E'; cbn in E'; lia|]. rewrite Eu, Em, <- app_assoc in El. cbn [app] in El.
    exists a, b, m, xn, yn. split; [exact El|]. rewrite El in P.
    assert (K : forall u0, prop2 (u0 ++ [xn; yn; a; b]) -> xn <> a /\ yn <> b).
    { induction u0 as [|c u0 IH]; cbn [app]; [rewrite !prop2_cons3; tauto|]. intros Q. apply IH. exact (prop2_tl _ _ Q). }
    apply (K (a :: b :: m)). cbn [app]. cbn [app] in P. rewrite <- app_assoc in P. cbn [app] in P. exact P.
  - intros j c d E1 _ E3. exfalso. apply prop2_app_l in P. exact (prop2_nth l P j c E1 E3).
Qed.
Lemma strict_ok l : strict_ring l -> ring_ok l.
Proof. intros S. split; [apply S|]. right. left. apply strict_proper. exact S. Qed.

(* ---------- the sign of the area ---------- *)
Lemma zsum_nonneg {A : Type} (f : A -> Z) l : (forall a, In a l -> 0 <= f a) -> 0 <= zsum f l /\ (zsum f l = 0 -> forall a, In a l -> f a = 0).
Proof.
  induction l as [|a l IH]; intros H; [split; [reflexivity|intros _ a []]|]. unfold zsum. cbn [fold_right]. fold (zsum f l).
  destruct IH as [I1 I2]; [intros b Hb; apply H; right; exact Hb|]. pose proof (H a (or_introl eq_refl)). split; [lia|].
  intros E b [<-|Hb]; [lia|]. apply I2; [lia|exact Hb].
Qed.
Lemma zrange_in a n i : In i (zrange a n) <-> a <= i < a + Z.of_nat n.
Proof.
  unfold zrange. rewrite in_map_iff. split.
  - intros [k [<- Hk]]. apply in_seq in Hk. lia.
  - intros H. exists (Z.to_nat (i - a)). split; [lia|]. apply in_seq. lia.
Qed.
Lemma strict_box l : strict_ring l -> exists n, Forall (inside_box INT_MIN n INT_MIN n) (ring_points l).
Proof.
  intros [I [[n E] _]]. destruct (Z_of_nat_complete (INT_MAX - INT_MIN)) as [N EN]; [unfold INT_MAX, INT_MIN; lia|]. exists N.
  destruct (even_flat n l E) as [cs [El _]]. destruct cs as [|[a b] cs]; [subst l; constructor|].
  replace (ring_points l) with (rp a ((a, b) :: cs)) by (rewrite El, <- ring_points_flat; reflexivity). apply Forall_forall. intros p Hp.
  apply rp_coords in Hp. rewrite <- El in Hp. rewrite Forall_forall in I. destruct Hp as [Hx Hy].
  assert (Hx' : In (px p) l) by (destruct Hx as [->|Hx]; [rewrite El; left; reflexivity|exact Hx]). apply I in Hx', Hy. unfold is_int in *. unfold inside_box. rewrite <- EN. lia.
Qed.
Lemma ring_area_pos l : strict_ring l -> (forall x y, 0 <= winding_number (ring_points l) x y) ->
  0 <= shoelace2 (ring_points l) /\ (shoelace2 (ring_points l) = 0 -> forall x y, winding_number (ring_points l) x y = 0).
Proof.
  intros S P. pose proof S as [_ [Ev [_ Nz]]]. pose proof (ring_rectilinear l Ev Nz) as R. destruct (strict_box l S) as [n B].
  pose proof (winding_area INT_MIN n INT_MIN n _ R B) as A. unfold box_sum in A.
  destruct (zsum_nonneg (fun i => zsum (fun j => winding_number (ring_points l) i j) (zrange INT_MIN n)) (zrange INT_MIN n)) as [K1 K2].
  { intros i _. apply zsum_nonneg. intros j _. apply P. }
  split; [lia|]. intros E x y. destruct (Z_le_dec INT_MIN x) as [C1|C1]; [|apply (winding_outside INT_MIN n INT_MIN n _ _ _ R B); lia].
  destruct (Z_lt_dec x (INT_MIN + Z.of_nat n)) as [C2|C2]; [|apply (winding_outside INT_MIN n INT_MIN n _ _ _ R B); lia].
  destruct (Z_le_dec INT_MIN y) as [C3|C3]; [|apply (winding_outside INT_MIN n INT_MIN n _ _ _ R B); lia].
  destruct (Z_lt_dec y (INT_MIN + Z.of_nat n)) as [C4|C4]; [|apply (winding_outside INT_MIN n INT_MIN n _ _ _ R B); lia].
  assert (Ex : zsum (fun j => winding_number (ring_points l) x j) (zrange INT_MIN n) = 0) by (apply (K2 ltac:(lia) x); apply zrange_in; lia).
  revert Ex. intros Ex. destruct (zsum_nonneg (fun j => winding_number (ring_points l) x j) (zrange INT_MIN n)) as [_ K3]; [intros j _; apply P|].
  apply (K3 Ex y). apply zrange_in. lia.
Qed.
Lemma shoelace_neg l : strict_ring l -> (forall x y, winding_number (ring_points l) x y <= 0) -> shoelace2 (ring_points l) <= 0.
Proof.
  intros S P. pose proof S as [_ [Ev [_ Nz]]]. pose proof (ring_rectilinear l Ev Nz) as R. destruct (strict_box l S) as [n B].
  pose proof (winding_area INT_MIN n INT_MIN n _ R B) as A.
  assert (K : 0 <= - box_sum INT_MIN n INT_MIN n (winding_number (ring_points l))).
  { rewrite <- box_sum_opp. unfold box_sum. apply zsum_nonneg. intros i _. apply zsum_nonneg. intros j _. specialize (P i j). lia. }
  lia.
Qed.
Lemma ccw_count l x y : ccw_ring l -> ring_count l x y = winding_number (ring_points l) x y.
Proof.
  intros [S W]. destruct (ring_area_pos l S) as [K1 K2]; [intros u v; destruct (W u v); lia|]. unfold ring_count.
  destruct (Z.ltb_spec 0 (shoelace2 (ring_points l))) as [C|C]; [reflexivity|]. rewrite (K2 ltac:(lia)). reflexivity.
Qed.
Lemma cw_count l x y : cw_ring l -> ring_count l x y = - winding_number (ring_points l) x y.
Proof.
  intros [S W]. pose proof (shoelace_neg l S) as K. unfold ring_count. replace (0 <? shoelace2 (ring_points l)) with false; [reflexivity|].
  symmetry. apply Z.ltb_ge. apply K. intros u v. destruct (W u v); lia.
Qed.
Lemma formed_count p x y : formed p -> poly_count p x y = poly_winding p x y.
Proof.
  intros [A [B _]]. unfold poly_count, poly_winding. rewrite ccw_count by exact A. rewrite (zsum_ext _ (fun h => - winding_number (ring_points h) x y)); [rewrite zsum_opp; lia|].
  intros h Hh. apply cw_count. rewrite Forall_forall in B. apply B. exact Hh.
Qed.
Lemma formed_ok p : formed p -> poly_ok p.
Proof.
  intros [A [B _]]. split; [apply strict_ok; apply A|]. eapply Forall_impl; [|exact B]. intros h Hh. apply strict_ok. apply Hh.
Qed.

(* ---------- polygon sets ---------- *)
Lemma ps_get_polygons_spec fr s : ps_ok s -> exists ps s', ps_get_polygons fr s = Some (ps, s') /\
  ps_ok s' /\ ps_orient s' = ps_orient s /\ (forall x y, ps_covers s' x y <-> ps_covers s x y) /\
  forms ps (ps_covers s) /\ (fr = true -> Forall (fun p => p_holes p = []) ps) /\
  (fr = false -> exists P : Z -> Z -> bool, (forall x y, P x y = true <-> ps_covers s x y) /\ Forall (tight P) ps).
Proof.
  intros O. destruct (clean_is_clean_data s O) as [s' [E [O' [Eo [CD C]]]]]. unfold ps_get_polygons. rewrite E. cbn [bind].
  destruct (get_polygons_spec (ps_data s') fr (ps_orient s') CD (ok_int _ O')) as [ps [Ep [F [G [Wd Tt]]]]]. rewrite Ep. cbn [bind].
  exists ps, s'. split; [reflexivity|]. split; [exact O'|]. split; [exact Eo|]. split; [exact C|]. split; [|split; [exact G|intros Ef; exists (turn (ps_orient s') (reg (ps_data s'))); split; [|exact (Tt Ef)]]]. split; [exact F|].
  - assert (Pw : forall x y, polys_winding ps x y = ps_count s' x y).
  { intros x y. unfold ps_count, wind. rewrite <- (turn_turn (ps_orient s') (polys_winding ps) x y). destruct (ps_orient s'); cbn [turn] in *; apply Wd. }
  intros x y. rewrite Pw. assert (B : ps_count s' x y = 0 \/ ps_count s' x y = 1) by (unfold ps_count, wind; destruct (ps_orient s'); apply (cd_01 _ CD)).
  rewrite <- C. unfold ps_covers. lia.
  - intros x y. rewrite <- C. unfold ps_covers, wind.
    assert (B : forall u v, (reg (ps_data s') u v = true) <-> 0 < cnt (ps_data s') u v) by (intros u v; unfold reg; destruct (cd_01 _ CD u v); lia).
    unfold ps_count, wind. destruct (ps_orient s'); cbn [turn]; apply B.
Qed.
Lemma get_polygons_cor st i fr : reachable st -> exists ps s, ps_get_polygons fr (st i) = Some (ps, s) /\
  forms ps (ps_covers (st i)) /\ (fr = true -> Forall (fun p => p_holes p = []) ps) /\
  ps_orient s = ps_orient (st i) /\ (forall x y, ps_covers s x y <-> ps_covers (st i) x y).
Proof.
  intros H. destruct (ps_get_polygons_spec fr _ (reachable_ok st i H)) as [ps [s [E [_ [K1 [K2 [K3 [K4 _]]]]]]]]. exists ps, s. tauto.
Qed.

Definition insert_polys (ps : list poly90) (s : pset) : outcome pset := fold_left (fun r p => obind r (fun s => ps_insert_poly s p false)) ps (Ok s).
Lemma insert_polys_stop {A : Type} (l : list A) f (r : outcome pset) : r = Overflow \/ r = Undefined -> fold_left (fun r p => obind r (fun s => f s p)) l r = r.
Proof. induction l as [|a l IH]; intros H; [reflexivity|]. cbn [fold_left]. destruct H as [-> | ->]; cbn [obind]; apply IH; tauto. Qed.
Lemma insert_polys_spec ps : forall s, ps_ok s -> Forall formed ps ->
  match insert_polys ps s with
  | Ok t => ps_ok t /\ ps_orient t = ps_orient s /\ forall x y, ps_count t x y = ps_count s x y + polys_winding ps x y
  | Overflow => True
  | Undefined => False
  end.
Proof.
  induction ps as [|p ps IH]; intros s O F; unfold insert_polys; cbn [fold_left].
  - split; [exact O|]. split; [reflexivity|]. intros x y. unfold polys_winding, zsum. cbn [fold_right]. lia.
  - inversion F as [|? ? Fp Fs]; subst. cbn [obind]. pose proof (ps_insert_poly_spec s p false O (formed_ok p Fp)) as K. destruct (ps_insert_poly s p false) as [s1| |] eqn:E.
    + destruct K as [O1 [E1 C1]]. specialize (IH s1 O1 Fs). unfold insert_polys in IH. destruct (fold_left _ ps (Ok s1)) as [t| |]; [|exact I|exact IH]. destruct IH as [O2 [E2 C2]].
      split; [exact O2|]. split; [congruence|]. intros x y. rewrite C2. unfold ps_count at 1. rewrite E1, C1. unfold ps_count. rewrite formed_count by exact Fp.
      unfold polys_winding, zsum. cbn [fold_right]. lia.
    + rewrite insert_polys_stop by tauto. exact I.
    + destruct K.
Qed.
Lemma insert_polys_fits B ps : forall s, Forall (poly_fits B) ps -> insert_polys ps s <> Overflow.
Proof.
  induction ps as [|p ps IH]; intros s F; unfold insert_polys; cbn [fold_left]; [discriminate|]. inversion F as [|? ? F1 F2]; subst. cbn [obind].
  assert (N : ps_insert_poly s p false <> Overflow).
  { unfold ps_insert_poly. destruct F1 as [F3 F4]. pose proof (poly_vertices_fits (ps_orient s) false p B F3 F4) as N. destruct (poly_vertices (ps_orient s) false p); cbn [obind]; congruence. }
  destruct (ps_insert_poly s p false) as [s1| |]; [apply IH; exact F2|congruence|]. rewrite insert_polys_stop by tauto. discriminate.
Qed.
Lemma poly_roundtrip_cor st i fr ps s : reachable st -> ps_get_polygons fr (st i) = Some (ps, s) ->
  match insert_polys ps (ps_new (ps_orient (st i))) with
  | Ok t => exists t1 t2, ps_eq t (st i) = Some (true, (t1, t2))
  | Overflow => forall B, ~ Forall (poly_fits B) ps
  | Undefined => False
  end.
Proof.
  intros H E. pose proof (reachable_ok st i H) as O. destruct (ps_get_polygons_spec fr _ O) as [ps' [s' [E' [_ [_ [_ [[F D] _]]]]]]]. rewrite E' in E. injection E as -> _.
  pose proof (insert_polys_spec ps (ps_new (ps_orient (st i))) (ps_new_ok _) F) as K. destruct (insert_polys ps (ps_new (ps_orient (st i)))) as [t| |] eqn:Ei; [|intros B FB; exact (insert_polys_fits B ps _ FB Ei)|exact K].
  destruct K as [O2 [E2 C2]]. destruct (ps_eq_spec _ _ O2 O) as [b [t1 [t2 [K1 [_ [_ K]]]]]]; [rewrite E2; reflexivity|].
  exists t1, t2. rewrite K1. do 2 f_equal. apply K. intros x y. specialize (C2 x y). destruct (D x y) as [D1 D2].
  assert (Z0 : ps_count (ps_new (ps_orient (st i))) x y = 0) by (unfold ps_count, ps_new; cbn [ps_orient ps_data]; destruct (ps_orient (st i)); reflexivity).
  unfold ps_covers in *. unfold ps_count in *. destruct (Z_lt_dec 0 (wind (ps_orient (st i)) (ps_data (st i)) x y)) as [C|C]; [specialize (D1 C)|specialize (D2 C)]; lia.
Qed.
