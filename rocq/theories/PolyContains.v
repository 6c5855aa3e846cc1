(* contains for polygons: the even-odd rule. *)
From Verif Require Import Base Units Outcome Scan90Spec Poly90Spec Poly90Model Poly90Proofs PolyCycle Poly90Vertices.
From Verif Require Import Set90Spec Set90Model GeoSpec IvlModel IvlProofs RectModel RectProofs SegModel SegProofs PolySpec PolyModel PolyArea PolyEdge.
From Coq Require Import Permutation.

(* ---------- parity ---------- *)
Lemma odd_sum_ext {A : Type} (f g : A -> Z) l : (forall a, In a l -> Z.odd (f a) = Z.odd (g a)) -> Z.odd (zsum f l) = Z.odd (zsum g l).
Proof.
  induction l as [|a l IH]; intros H; [reflexivity|]. rewrite !zsum_cons, !Z.odd_add, IH, (H a); [reflexivity|left; reflexivity|].
  intros b Hb. apply H. right; exact Hb.
Qed.
Lemma odd_sub a b : Z.odd (a - b) = xorb (Z.odd a) (Z.odd b).
Proof. unfold Z.sub. rewrite Z.odd_add, Z.odd_opp. reflexivity. Qed.

(* ---------- edges ---------- *)
Lemma on_edge_box a b p : on_edge (a, b) p <-> sd a b p = 0 /\ Z.min (px a) (px b) <= px p <= Z.max (px a) (px b) /\
  Z.min (py a) (py b) <= py p <= Z.max (py a) (py b).
Proof.
  unfold on_edge. cbn [fst snd]. rewrite on_seg_pt. unfold sx, sy, contains_v, sd. cbn [s_low s_high lo hi].
  lia.
Qed.
Lemma on_edge_sym a b p : on_edge (a, b) p <-> on_edge (b, a) p.
Proof. rewrite !on_edge_box, sd_swap. lia. Qed.
Lemma on_edge_dec e p : {on_edge e p} + {~ on_edge e p}.
Proof.
  destruct e as [a b]. destruct (Z.eq_dec (sd a b p) 0) as [A|A]; [|right; rewrite on_edge_box; tauto].
  destruct (Z_le_dec (Z.min (px a) (px b)) (px p)); [|right; rewrite on_edge_box; tauto].
  destruct (Z_le_dec (px p) (Z.max (px a) (px b))); [|right; rewrite on_edge_box; tauto].
  destruct (Z_le_dec (Z.min (py a) (py b)) (py p)); [|right; rewrite on_edge_box; tauto].
  destruct (Z_le_dec (py p) (Z.max (py a) (py b))); [|right; rewrite on_edge_box; tauto].
  left. rewrite on_edge_box. tauto.
Qed.
Lemma sd_eq a b p : sd a b p = (px b - px a) * (py p - py a) - (py b - py a) * (px p - px a).
Proof. unfold sd, side, cross. cbn [s_low s_high]. reflexivity. Qed.
(* on a non-vertical edge over whose extent p lies, the y condition follows *)
Lemma on_edge_x a b p : px a <> px b -> Z.min (px a) (px b) <= px p <= Z.max (px a) (px b) ->
  (on_edge (a, b) p <-> sd a b p = 0).
Proof.
  intros N I. rewrite on_edge_box. split; [tauto|]. intros E. split; [exact E|]. split; [exact I|].
  rewrite sd_eq in E. set (u := px b - px a) in *. set (v := py b - py a) in *.
  assert (U : u <> 0) by (unfold u; lia).
  assert (B : (0 <= px p - px a <= u) \/ (u <= px p - px a <= 0)) by (unfold u; lia).
  set (s := px p - px a) in *. set (h := py p - py a) in *.
  assert (G : (0 <= h <= v) \/ (v <= h <= 0)).
  { clearbody u v s h. assert (K : u * h = v * s) by lia. clear - U B K. destruct (Z_le_gt_dec 0 v); [left|right]; nia. }
  unfold h, v in G. lia.
Qed.
Lemma below_eq p a b : below p (a, b) = (Z.min (px a) (px b) <=? px p) && (px p <? Z.max (px a) (px b)) && (0 <? if px a <? px b then sd a b p else sd b a p).
Proof.
  unfold below. fold (sd a b p) (sd b a p). destruct (Z.ltb_spec (px a) (px b)) as [O|O].
  - rewrite Z.min_l, Z.max_r by lia. replace ((px b <=? px p) && (px p <? px a)) with false by lia. cbn [andb]. apply orb_false_r.
  - rewrite Z.min_r, Z.max_l by lia. replace ((px a <=? px p) && (px p <? px b)) with false by lia. reflexivity.
Qed.
Lemma above_eq p a b : above p (a, b) = (Z.min (px a) (px b) <=? px p) && (px p <? Z.max (px a) (px b)) && ((if px a <? px b then sd a b p else sd b a p) <? 0).
Proof.
  unfold above. fold (sd a b p) (sd b a p). destruct (Z.ltb_spec (px a) (px b)) as [O|O].
  - rewrite Z.min_l, Z.max_r by lia. replace ((px b <=? px p) && (px p <? px a)) with false by lia. cbn [andb]. apply orb_false_r.
  - rewrite Z.min_r, Z.max_l by lia. replace ((px a <=? px p) && (px p <? px b)) with false by lia. reflexivity.
Qed.
Definition b2z (b : bool) : Z := if b then 1 else 0.
Lemma below_zero p a : below p (a, a) = false.
Proof. rewrite below_eq. lia. Qed.

(* ---------- general polygons ---------- *)
Lemma cg_edge_spec p a b : pt_int p -> pt_int a -> pt_int b -> a <> b ->
  (on_edge (a, b) p -> cg_edge p a b = None) /\
  (~ on_edge (a, b) p -> cg_edge p a b = Some (b2z (below p (a, b)))).
Proof.
  intros Hp Ha Hb N. unfold cg_edge. rewrite below_eq.
  destruct (pt_eqb p b) eqn:EB.
  { apply pt_eqb_iff in EB. subst p. split; [reflexivity|]. intros H. contradiction H. rewrite on_edge_box, sd_eq. split; [ring|lia]. }
  destruct (Z.eq_dec (px a) (px b)) as [V|V].
  - rewrite V, Z.min_id, Z.max_id.
    replace ((px p >=? px b) && (px p <? px b)) with false by lia.
    replace ((px b <=? px p) && (px p <? px b)) with false by lia. cbn [andb b2z].
    destruct (Z.eqb_spec (px p) (px b)) as [X|X].
    + destruct ((py p <=? _) && _) eqn:E.
      * split; [reflexivity|]. intros H. contradiction H. rewrite on_edge_box, sd_eq. rewrite V, X. split; [ring|lia].
      * split; [|reflexivity]. rewrite on_edge_box. lia.
    + split; [|reflexivity]. rewrite on_edge_box. lia.
  - destruct ((px p >=? Z.min (px a) (px b)) && (px p <? Z.max (px a) (px b))) eqn:E.
    + assert (I : Z.min (px a) (px b) <= px p <= Z.max (px a) (px b)) by lia.
      replace ((Z.min (px a) (px b) <=? px p) && (px p <? Z.max (px a) (px b))) with true by lia. cbn [andb].
      rewrite (on_edge_x a b p V I), (oab_spec p a b Hp Ha Hb V I).
      pose proof (sd_swap a b p) as SW. set (k := if px a <? px b then sd a b p else sd b a p).
      assert (K : sd a b p = 0 <-> k = 0) by (unfold k; destruct (px a <? px b); lia). rewrite K. clearbody k. clear.
      destruct k; cbn [Z.sgn Z.eqb]; (split; [intros|intros H; try (contradiction H; reflexivity)]); try reflexivity; try discriminate.
    + replace ((Z.min (px a) (px b) <=? px p) && (px p <? Z.max (px a) (px b))) with false by lia. cbn [andb b2z].
      destruct (Z.eqb_spec (px p) (Z.max (px a) (px b))) as [X|X].
      * replace (px p =? Z.min (px a) (px b)) with false by lia.
        assert (I : Z.min (px a) (px b) <= px p <= Z.max (px a) (px b)) by lia.
        rewrite (on_edge_x a b p V I), (oab_spec p a b Hp Ha Hb V I).
        pose proof (sd_swap a b p) as SW. set (k := if px a <? px b then sd a b p else sd b a p).
        assert (K : sd a b p = 0 <-> k = 0) by (unfold k; destruct (px a <? px b); lia). rewrite K. clearbody k. clear.
        destruct k; cbn [Z.sgn Z.eqb]; (split; [intros|intros H; try (contradiction H; reflexivity)]); try reflexivity; try discriminate.
      * split; [|reflexivity]. rewrite on_edge_box. lia.
Qed.
Definition proper_edge (e : point * point) : Prop := fst e <> snd e.
Lemma rem_odd z : 0 <= z -> negb (Z.rem z 2 =? 0) = Z.odd z.
Proof.
  intros H. rewrite Z.rem_mod_nonneg by lia. rewrite Zmod_odd. destruct (Z.odd z); reflexivity.
Qed.
Lemma cg_loop_spec p touch l : forall prev n, pt_int p -> Forall pt_int (prev :: l) -> 0 <= n ->
  ((exists e, In e (pedges (prev :: l)) /\ proper_edge e /\ on_edge e p) -> cg_loop p touch prev n l = touch) /\
  (~ (exists e, In e (pedges (prev :: l)) /\ proper_edge e /\ on_edge e p) ->
     cg_loop p touch prev n l = Z.odd (n + count_if (below p) (pedges (prev :: l)))).
Proof.
  induction l as [|cur l IH]; intros prev n Hp Hl Hn.
  - split; [intros [e [[] _]]|]. intros _. cbn [cg_loop pedges]. unfold count_if, zsum; cbn [fold_right]. rewrite Z.add_0_r. apply rem_odd, Hn.
  - change (pedges (prev :: cur :: l)) with ((prev, cur) :: pedges (cur :: l)). cbn [cg_loop].
    inversion Hl as [|? ? H1 H2]; subst. inversion H2 as [|? ? H3 H4]; subst.
    assert (CE : forall k, k + count_if (below p) ((prev, cur) :: pedges (cur :: l)) = k + b2z (below p (prev, cur)) + count_if (below p) (pedges (cur :: l))).
    { intros k. unfold count_if. rewrite zsum_cons. unfold b2z. lia. }
    destruct (pt_eqb cur prev) eqn:E.
    + apply pt_eqb_iff in E. subst cur. rewrite CE, below_zero. cbn [b2z]. rewrite Z.add_0_r.
      destruct (IH prev n Hp H2 Hn) as [A B]. split.
      * intros [e [[<-|I] [P O]]]; [contradiction P; reflexivity|]. apply A. eauto.
      * intros F. apply B. intros [e [I X]]. apply F. exists e. split; [right; exact I|exact X].
    + assert (NE : prev <> cur) by (intros ->; rewrite pt_eqb_refl in E; discriminate).
      destruct (cg_edge_spec p prev cur Hp H1 H3 NE) as [C D].
      destruct (on_edge_dec (prev, cur) p) as [O|O].
      * rewrite (C O). split; [reflexivity|]. intros F. contradiction F. exists (prev, cur). split; [left; reflexivity|]. split; [exact NE|exact O].
      * rewrite (D O). rewrite CE. assert (0 <= b2z (below p (prev, cur))) by (unfold b2z; destruct (below p (prev, cur)); lia).
        destruct (IH cur (n + b2z (below p (prev, cur))) Hp H2 ltac:(lia)) as [A B]. split.
        -- intros [e [[<-|I] [P OO]]]; [contradiction|]. apply A. eauto.
        -- intros F. apply B. intros [e [I X]]. apply F. exists e. split; [right; exact I|exact X].
Qed.
(* a vertex of a cycle with two different vertices ends an edge of positive length *)
Lemma path_back v L : (forall e, In e (pedges (L ++ [v])) -> snd e = v -> fst e = v) -> forall q, In q L -> q = v.
Proof.
  induction L as [|a L IH] using rev_ind; intros H q Hq; [contradiction|].
  rewrite <- app_assoc in H. cbn [app] in H. rewrite pedges_snoc in H.
  assert (a = v) by (apply (H (a, v)); [apply in_or_app; right; left; reflexivity|reflexivity]). subst a.
  apply in_app_or in Hq as [Hq|[<-|[]]]; [|reflexivity]. apply IH; [|exact Hq].
  intros e He. apply H. apply in_or_app. left; exact He.
Qed.
Lemma vertex_edge l v : two_points l -> In v l -> exists e, In e (cyc_edges l) /\ proper_edge e /\ snd e = v.
Proof.
  intros [a [b [Ha [Hb N]]]] Hv. apply in_split in Hv as [l1 [l2 ->]].
  pose proof (cyc_rotate l1 (v :: l2)) as P. cbn [app] in P. rewrite cyc_pedges in P.
  set (L := v :: l2 ++ l1) in *.
  destruct (Exists_dec (fun e : point * point => proper_edge e /\ snd e = v) (pedges (L ++ [v]))) as [X|X].
  { intros e. assert (D : forall x y : point, {x = y} + {x <> y}) by (intros x y; destruct (pt_eqb x y) eqn:E; [left; apply pt_eqb_iff, E|right; intros ->; rewrite pt_eqb_refl in E; discriminate]).
    unfold proper_edge. destruct (D (fst e) (snd e)); [right; tauto|]. destruct (D (snd e) v); [left; tauto|right; tauto]. }
  - apply Exists_exists in X as [e [I [Q E]]]. exists e. split; [|split; assumption].
    apply (Permutation_in _ (Permutation_sym P)). exact I.
  - exfalso. apply N.
    assert (ALL : forall q, In q L -> q = v).
    { apply path_back. intros e I E. assert (D : forall x y : point, {x = y} + {x <> y}) by (intros x y; destruct (pt_eqb x y) eqn:E'; [left; apply pt_eqb_iff, E'|right; intros ->; rewrite pt_eqb_refl in E'; discriminate]).
      destruct (D (fst e) v) as [?|F]; [assumption|]. exfalso. apply X. apply Exists_exists. exists e. split; [exact I|]. split; [|exact E]. unfold proper_edge. congruence. }
    assert (PL : forall q, In q (l1 ++ v :: l2) -> In q L).
    { intros q Hq. unfold L. apply in_app_or in Hq as [Hq|[Hq|Hq]]; [right; apply in_or_app; right; exact Hq|left; exact Hq|right; apply in_or_app; left; exact Hq]. }
    rewrite (ALL a), (ALL b) by (apply PL; assumption). reflexivity.
Qed.
Lemma on_edge_end a b : on_edge (a, b) b.
Proof. rewrite on_edge_box, sd_eq. split; [ring|lia]. Qed.
Lemma on_edge_start a b : on_edge (a, b) a.
Proof. rewrite on_edge_box, sd_eq. split; [ring|lia]. Qed.
Lemma on_edge_point a p : on_edge (a, a) p -> p = a.
Proof. rewrite on_edge_box. intros [_ H]. destruct p as [x1 y1], a as [x2 y2]; cbn [px py] in *. f_equal; lia. Qed.
Lemma proper_dec e : {proper_edge e} + {fst e = snd e}.
Proof. destruct (pt_eqb (fst e) (snd e)) eqn:E; [right; apply pt_eqb_iff, E|left; intros F; rewrite F, pt_eqb_refl in E; discriminate]. Qed.
Lemma on_curve_proper l p : two_points l -> (on_curve l p <-> exists e, In e (cyc_edges l) /\ proper_edge e /\ on_edge e p).
Proof.
  intros T. split; [|intros [e [A [_ B]]]; exists e; split; assumption].
  intros [e [I O]]. destruct (proper_dec e) as [P|P]; [eauto|].
  destruct e as [a b]; cbn [fst snd] in P; subst b. apply on_edge_point in O. subst p.
  destruct (vertex_edge l a T) as [[u v] [I2 [P2 E]]]; [apply (cyc_in _ _ I)|]. cbn [snd] in E. subst v.
  exists (u, a). split; [exact I2|]. split; [exact P2|]. apply on_edge_end.
Qed.
Lemma two_points_cons f t : two_points (f :: t) -> t <> [].
Proof. intros [a [b [Ha [Hb N]]]] ->. destruct Ha as [<-|[]], Hb as [<-|[]]. contradiction. Qed.
Lemma contains_general_spec l p touch : Forall pt_int l -> pt_int p -> two_points l ->
  (on_curve l p -> contains_general l p touch = touch) /\
  (~ on_curve l p -> contains_general l p touch = Z.odd (edges_below l p)).
Proof.
  intros Hl Hp T. rewrite (on_curve_proper _ _ T). destruct l as [|f t]; [destruct T as [a [b [[] _]]]|].
  pose proof (two_points_cons _ _ T) as NT. unfold contains_general. destruct t as [|s t]; [congruence|].
  unfold edges_below. rewrite cyc_pedges. cbn [app].
  assert (HL : Forall pt_int (f :: (s :: t) ++ [f])).
  { inversion Hl; subst. constructor; [assumption|]. apply Forall_app. split; [assumption|]. constructor; [assumption|constructor]. }
  destruct (cg_loop_spec p touch ((s :: t) ++ [f]) f 0 Hp HL ltac:(lia)) as [A B]. split; [exact A|].
  intros F. exact (B F).
Qed.
(* degenerate polygons contain nothing *)
Lemma contains_general_degenerate l p touch : ~ two_points l -> contains_general l p touch = false.
Proof.
  intros T. destruct l as [|f t]; [reflexivity|]. unfold contains_general. destruct t as [|s t]; [reflexivity|].
  assert (ALL : forall q, In q (s :: t) -> q = f).
  { intros q Hq. destruct (pt_eqb q f) eqn:E; [apply pt_eqb_iff, E|]. exfalso. apply T. exists q, f. split; [right; exact Hq|]. split; [left; reflexivity|].
    intros ->. rewrite pt_eqb_refl in E. discriminate. }
  assert (L : forall k, (forall q, In q k -> q = f) -> cg_loop p touch f 0 k = false).
  { induction k as [|q k IH]; intros H; cbn [cg_loop]; [reflexivity|]. rewrite (H q) by (left; reflexivity). rewrite pt_eqb_refl. apply IH. intros; apply H; right; assumption. }
  apply L. intros q Hq. apply in_app_or in Hq as [Hq|[<-|[]]]; [apply ALL, Hq|reflexivity].
Qed.

(* ---------- facts about the even-odd rule ---------- *)
Lemma below_swap p e : below p (swap_edge e) = below p e.
Proof. destruct e as [a b]. unfold swap_edge, below; cbn [fst snd]. apply orb_comm. Qed.
Lemma edges_below_rotate l m p : edges_below (l ++ m) p = edges_below (m ++ l) p.
Proof. apply zsum_perm, cyc_rotate. Qed.
Lemma edges_below_rev l p : edges_below (rev l) p = edges_below l p.
Proof.
  unfold edges_below, count_if. rewrite (zsum_perm _ _ _ (cyc_rev l)), zsum_map. apply zsum_ext. intros e _. rewrite below_swap. reflexivity.
Qed.
(* off the curve the edges above have the same parity *)
Lemma above_below l p : ~ on_curve l p -> Z.odd (edges_above l p) = Z.odd (edges_below l p).
Proof.
  intros F. pose proof (cyc_telescope (fun q => b2z (px q <=? px p)) l) as T.
  assert (E : Z.odd (edges_above l p - edges_below l p) = false).
  { change false with (Z.odd 0). rewrite <- (f_equal Z.odd T). unfold edges_above, edges_below, count_if, Z.sub at 1. rewrite <- zsum_opp, <- zsum_add.
    apply odd_sum_ext. intros [a b] I. cbn [fst snd]. rewrite above_eq, below_eq.
    destruct ((Z.min (px a) (px b) <=? px p) && (px p <? Z.max (px a) (px b))) eqn:R; cbn [andb].
    - assert (V : px a <> px b) by lia. assert (K : (if px a <? px b then sd a b p else sd b a p) <> 0).
      { intros K. apply F. exists (a, b). split; [exact I|]. apply on_edge_x; [exact V|lia|]. pose proof (sd_swap a b p). destruct (px a <? px b); lia. }
      set (k := if px a <? px b then sd a b p else sd b a p) in *. clearbody k.
      assert (Q : xorb (px a <=? px p) (px b <=? px p) = true) by (destruct (Z.leb_spec (px a) (px p)), (Z.leb_spec (px b) (px p)); cbn; try reflexivity; lia).
      destruct (px a <=? px p), (px b <=? px p); cbn [xorb] in Q; try discriminate; unfold b2z; destruct (Z.ltb_spec k 0), (Z.ltb_spec 0 k); try lia; reflexivity.
    - assert (Q : (px a <=? px p) = (px b <=? px p)) by (destruct (Z.leb_spec (px a) (px p)), (Z.leb_spec (px b) (px p)); try reflexivity; lia).
      rewrite Q. unfold b2z. destruct (px b <=? px p); reflexivity. }
  rewrite odd_sub in E. destruct (Z.odd (edges_above l p)), (Z.odd (edges_below l p)); cbn in E; congruence.
Qed.
(* for rectilinear cycles it is the parity of the winding number of the cell up and right of the point *)
Lemma below_winding l p : rectilinear l -> ~ on_curve l p -> Z.odd (edges_below l p) = Z.odd (winding_number l (px p) (py p)).
Proof.
  intros A F. unfold edges_below, count_if, winding_number. apply odd_sum_ext. intros [a b] I.
  assert (AX : axis_edge (a, b)) by (unfold rectilinear in A; rewrite Forall_forall in A; apply A, I).
  assert (O : ~ on_edge (a, b) p) by (intros O; apply F; exists (a, b); split; assumption).
  rewrite below_eq. unfold crossing, axis_edge in *. cbn [fst snd] in *.
  destruct AX as [V|H].
  - replace ((Z.min (px a) (px b) <=? px p) && (px p <? Z.max (px a) (px b))) with false by lia. cbn [andb].
    replace ((px a <=? px p) && (px p <? px b)) with false by lia. replace ((px b <=? px p) && (px p <? px a)) with false by lia.
    destruct ((py a =? py b) && (py a <=? py p)); reflexivity.
  - rewrite <- H, Z.eqb_refl. cbn [andb].
    destruct ((Z.min (px a) (px b) <=? px p) && (px p <? Z.max (px a) (px b))) eqn:R; cbn [andb].
    + assert (V : px a <> px b) by lia. rewrite on_edge_x in O by lia. rewrite !sd_eq in *. rewrite <- H in *. rewrite !Z.sub_diag in *. rewrite !Z.mul_0_l in *. rewrite !Z.sub_0_r in *.
      destruct (Z.ltb_spec (px a) (px b)) as [X|X].
      * replace ((px a <=? px p) && (px p <? px b)) with true by lia.
        destruct (Z.leb_spec (py a) (py p)); destruct (Z.ltb_spec 0 ((px b - px a) * (py p - py a))); try reflexivity; exfalso; nia.
      * replace ((px a <=? px p) && (px p <? px b)) with false by lia. replace ((px b <=? px p) && (px p <? px a)) with true by lia.
        destruct (Z.leb_spec (py a) (py p)); destruct (Z.ltb_spec 0 ((px a - px b) * (py p - py a))); try reflexivity; exfalso; nia.
    + replace ((px a <=? px p) && (px p <? px b)) with false by lia. replace ((px b <=? px p) && (px p <? px a)) with false by lia.
      destruct (py a <=? py p); reflexivity.
Qed.
(* contained points lie in the bounding box *)
Lemma inside_box_of l p r : tight l r -> on_curve l p \/ inside l p -> xl r <= px p <= xh r /\ yl r <= py p <= yh r.
Proof.
  intros T H.
  assert (D : {on_curve l p} + {~ on_curve l p}).
  { unfold on_curve. destruct (Exists_dec (fun e => on_edge e p) (cyc_edges l) (fun e => on_edge_dec e p)) as [X|X]; rewrite Exists_exists in X; [left|right]; exact X. }
  assert (BX : forall e, In e (cyc_edges l) -> (xl r <= px (fst e) <= xh r /\ yl r <= py (fst e) <= yh r) /\ (xl r <= px (snd e) <= xh r /\ yl r <= py (snd e) <= yh r)).
  { intros e He. apply cyc_in in He as [H1 H2]. destruct T as [T _]. split; apply T; assumption. }
  destruct D as [C|C].
  - destruct C as [[a b] [I O]]. rewrite on_edge_box in O. destruct (BX _ I) as [B1 B2]. cbn [fst snd] in *. lia.
  - destruct H as [H|H]; [contradiction|]. unfold inside in H. pose proof (above_below _ _ C) as AB. rewrite H in AB.
    assert (E : forall (f : point * point -> bool), Z.odd (count_if f (cyc_edges l)) = true -> exists e, In e (cyc_edges l) /\ f e = true).
    { intros f Hf. destruct (existsb f (cyc_edges l)) eqn:X; [apply existsb_exists in X; exact X|].
      exfalso. unfold count_if in Hf. rewrite (odd_sum_ext _ (fun _ => 0)) in Hf.
      - assert (Zr : zsum (fun _ : point * point => 0) (cyc_edges l) = 0) by (generalize (cyc_edges l); intros k; induction k as [|? ? IH]; [reflexivity|]; rewrite zsum_cons, IH; reflexivity).
        rewrite Zr in Hf. discriminate.
      - intros e He. destruct (f e) eqn:Fe; [|reflexivity]. assert (existsb f (cyc_edges l) = true) by (apply existsb_exists; eauto). congruence. }
    destruct (E _ H) as [[a b] [I1 P1]]. destruct (E _ AB) as [[c d] [I2 P2]].
    destruct (BX _ I1) as [B1 B2]. destruct (BX _ I2) as [B3 B4]. cbn [fst snd] in *.
    rewrite below_eq in P1. rewrite above_eq in P2. rewrite !andb_true_iff in P1, P2. destruct P1 as [[P11 P12] P13], P2 as [[P21 P22] P23].
    split; [lia|]. split.
    + rewrite Z.ltb_lt, !sd_eq in P13. destruct (Z_le_gt_dec (yl r) (py p)) as [?|G]; [assumption|]. exfalso.
      destruct (Z.ltb_spec (px a) (px b)); nia.
    + rewrite Z.ltb_lt, !sd_eq in P23. destruct (Z_le_gt_dec (py p) (yh r)) as [?|G]; [assumption|]. exfalso.
      destruct (Z.ltb_spec (px c) (px d)); nia.
Qed.
