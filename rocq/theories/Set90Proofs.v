(* Correctness of the operations of polygon_90_set_data and simulation of
   histories by the abstract machines of Set90Spec. *)
From Verif Require Import Base Scan90Spec BoolOpModel VertexLemmas BoolOpProofs IsoSpec IsoModel IsoProofs
  Set90Spec Set90Model Set90Lemmas.
From Coq Require Import Sorting.Permutation.

Definition indicator01 (V : list vertex) : Prop := forall x y, cnt V x y = 0 \/ cnt V x y = 1.

(* invariant of the objects *)
Record ps_ok (s : pset) : Prop := {
  ok_closed : closed (ps_data s);
  ok_int : dint (ps_data s);
  ok_sorted : ps_unsorted s = false -> StronglySorted pos_le (ps_data s);
  ok_clean : ps_dirty s = false -> clean_ok (ps_data s) /\ indicator01 (ps_data s)
}.

Lemma b2z_01 b : b2z b = 0 \/ b2z b = 1.
Proof. destruct b; cbn [b2z]; lia. Qed.
Lemma b2z_gtb b : (b2z b >? 0) = b.
Proof. destruct b; reflexivity. Qed.

Lemma wind_cnt o V W x y : (forall a b, cnt V a b = cnt W a b) -> wind o V x y = wind o W x y.
Proof. intros H. destruct o; cbn [wind]; apply H. Qed.
Lemma wind_map o V W f x y : (forall a b, cnt V a b = f (cnt W a b)) -> wind o V x y = f (wind o W x y).
Proof. intros H. destruct o; cbn [wind]; apply H. Qed.
Lemma wind_map2 o V W U f x y : (forall a b, cnt V a b = f (cnt W a b) (cnt U a b)) ->
  wind o V x y = f (wind o W x y) (wind o U x y).
Proof. intros H. destruct o; cbn [wind]; apply H. Qed.
Lemma wind_app o V W x y : wind o (V ++ W) x y = wind o V x y + wind o W x y.
Proof. destruct o; cbn [wind]; apply cnt_app. Qed.
Lemma orient_eqb_spec a b : reflect (a = b) (orient_eqb a b).
Proof. destruct a, b; constructor; congruence. Qed.
Lemma orient_eqb_refl a : orient_eqb a a = true.
Proof. destruct a; reflexivity. Qed.

(* ---------- fresh sets ---------- *)
Lemma ps_new_ok o : ps_ok (ps_new o).
Proof.
  constructor; cbn [ps_new ps_data ps_dirty ps_unsorted]; intros.
  - apply closed_nil.
  - constructor.
  - constructor.
  - split; [apply clean_ok_nil|]. intros x y. left. reflexivity.
Qed.
Lemma wind_nil o x y : wind o [] x y = 0.
Proof. destruct o; reflexivity. Qed.

(* ---------- sort ---------- *)
Lemma ps_sort_spec s : ps_ok s ->
  ps_ok (ps_sort s) /\ ps_orient (ps_sort s) = ps_orient s /\ ps_dirty (ps_sort s) = ps_dirty s /\
  ps_unsorted (ps_sort s) = false /\ Permutation (ps_data (ps_sort s)) (ps_data s) /\
  StronglySorted pos_le (ps_data (ps_sort s)).
Proof.
  intros [H1 H2 H3 H4]. unfold ps_sort. destruct (ps_unsorted s) eqn:E.
  - cbn [ps_orient ps_data ps_dirty ps_unsorted].
    pose proof (vsort_perm (ps_data s)) as P.
    split; [|split; [reflexivity|split; [reflexivity|split; [reflexivity|split; [exact P|apply vsort_sorted]]]]].
    constructor; cbn [ps_data ps_dirty ps_unsorted].
    + eapply closed_perm; [apply Permutation_sym; exact P|exact H1].
    + eapply Permutation_Forall; [apply Permutation_sym; exact P|exact H2].
    + intros _. apply vsort_sorted.
    + intros D. destruct (H4 D) as [C I]. split.
      * eapply clean_ok_perm; [apply Permutation_sym; exact P|exact C].
      * intros x y. rewrite (cnt_perm _ _ P). apply I.
  - split; [constructor; try assumption; intros _; apply H3; reflexivity|].
    split; [reflexivity|]. split; [reflexivity|]. split; [exact E|].
    split; [apply Permutation_refl|]. apply H3. reflexivity.
Qed.

(* ---------- clean ---------- *)
Lemma ps_clean_spec s : ps_ok s -> exists s', ps_clean s = Some s' /\
  ps_ok s' /\ ps_orient s' = ps_orient s /\ ps_dirty s' = false /\ ps_unsorted s' = false /\
  canonical (ps_data s') /\
  forall x y, cnt (ps_data s') x y = b2z (cnt (ps_data s) x y >? 0).
Proof.
  intros Hok. destruct (ps_sort_spec s Hok) as [O [E1 [E2 [E3 [P S]]]]].
  unfold ps_clean. destruct (ps_dirty (ps_sort s)) eqn:D.
  - destruct (applyBooleanOr_spec INT_MAX _ S (proj1 (ok_closed _ O))) as [out [A1 [A2 A3]]].
    rewrite A1. cbn [bind]. eexists. split; [reflexivity|]. cbn [ps_orient ps_data ps_dirty ps_unsorted].
    assert (A4 : forall x y, cnt out x y = b2z (cnt (ps_data s) x y >? 0)).
    { intros x y. rewrite A3, (cnt_perm _ _ P). reflexivity. }
    split; [|split; [exact E1|split; [reflexivity|split; [exact E3|split; [exact A2|exact A4]]]]].
    constructor; cbn [ps_data ps_dirty ps_unsorted].
    + eapply (closed_of_cnt _ _ (fun c => b2z (c >? 0))); [reflexivity|exact A4|apply (ok_closed _ Hok)].
    + eapply (clean_coords _ _ (fun c => b2z (c >? 0))); [apply canonical_clean_ok; exact A2|exact A4|apply (ok_int _ Hok)].
    + intros _. apply canonical_sorted. exact A2.
    + intros _. split; [apply canonical_clean_ok; exact A2|]. intros x y. rewrite A4. apply b2z_01.
  - eexists. split; [reflexivity|]. split; [exact O|]. split; [exact E1|].
    split; [exact D|]. split; [exact E3|].
    destruct (ok_clean _ O D) as [C I].
    split; [apply sorted_clean_canonical; assumption|].
    intros x y. rewrite <- (cnt_perm _ _ P). destruct (I x y) as [-> | ->]; reflexivity.
Qed.

(* ---------- insertion ---------- *)
Definition reorient (o o' : orient) (l : list vertex) : list vertex :=
  if orient_eqb o o' then l else map vswap l.
Lemma wind_reorient o o' l x y : wind o' (reorient o o' l) x y = wind o l x y.
Proof.
  unfold reorient. destruct o, o'; cbn [orient_eqb wind]; rewrite ?cnt_vswap; reflexivity.
Qed.
Lemma closed_reorient o o' l : closed l -> closed (reorient o o' l).
Proof. unfold reorient. destruct (orient_eqb o o'); [tauto|apply closed_vswap]. Qed.
Lemma dint_reorient o o' l : dint l -> dint (reorient o o' l).
Proof. unfold reorient. destruct (orient_eqb o o'); [tauto|apply dint_vswap]. Qed.

Lemma ps_insert_range_spec s l o : ps_ok s -> closed l -> dint l ->
  ps_ok (ps_insert_range s l o) /\ ps_orient (ps_insert_range s l o) = ps_orient s /\
  (forall x y, wind (ps_orient s) (ps_data (ps_insert_range s l o)) x y =
     wind (ps_orient s) (ps_data s) x y + wind o l x y) /\
  Permutation (ps_data (ps_insert_range s l o)) (ps_data s ++ reorient o (ps_orient s) l).
Proof.
  intros Hok Hc Hd. unfold ps_insert_range. destruct l as [|v l].
  - split; [exact Hok|]. split; [reflexivity|]. split.
    + intros x y. rewrite wind_nil. lia.
    + unfold reorient. destruct (orient_eqb _ _); cbn [map]; rewrite app_nil_r; apply Permutation_refl.
  - set (l0 := v :: l) in *. fold (reorient o (ps_orient s) l0).
    cbn [ps_orient ps_data]. split; [|split; [reflexivity|split; [|apply Permutation_refl]]].
    + constructor; cbn [ps_data ps_dirty ps_unsorted]; try discriminate.
      * apply closed_app; [apply (ok_closed _ Hok)|apply closed_reorient; exact Hc].
      * apply Forall_app. split; [apply (ok_int _ Hok)|apply dint_reorient; exact Hd].
    + intros x y. rewrite wind_app, wind_reorient. reflexivity.
Qed.

Lemma rect_vertices_spec o hole r : rect_ok r ->
  closed (rect_vertices o hole r) /\
  (forall x y, wind o (rect_vertices o hole r) x y =
     if in_rect r x y then (if hole then -1 else 1) else 0).
Proof.
  intros [Hx Hy]. split.
  - unfold rect_vertices. split; intros z; destruct o; cbn [col_total row_total vx vy vc fst snd];
      repeat match goal with |- context [?a =? ?b] => destruct (Z.eqb_spec a b) end; lia.
  - intros x y. unfold rect_vertices, in_rect. set (c := if hole then -1 else 1).
    destruct o; cbn [wind cnt vx vy vc fst snd];
      destruct (Z.leb_spec (xl r) x), (Z.leb_spec (yl r) y), (Z.ltb_spec x (xh r)), (Z.ltb_spec y (yh r)),
        (Z.leb_spec (xh r) x), (Z.leb_spec (yh r) y); cbn [andb]; lia.
Qed.
Lemma rect_vertices_int o hole r :
  is_int (xl r) -> is_int (xh r) -> is_int (yl r) -> is_int (yh r) -> dint (rect_vertices o hole r).
Proof.
  intros. unfold rect_vertices. destruct o;
    repeat (constructor; [split; assumption|]); constructor.
Qed.
Lemma ps_insert_rect_spec s r hole : ps_ok s -> rect_ok r ->
  is_int (xl r) -> is_int (xh r) -> is_int (yl r) -> is_int (yh r) ->
  ps_ok (ps_insert_rect s r hole) /\ ps_orient (ps_insert_rect s r hole) = ps_orient s /\
  (forall x y, wind (ps_orient s) (ps_data (ps_insert_rect s r hole)) x y =
     wind (ps_orient s) (ps_data s) x y + (if in_rect r x y then (if hole then -1 else 1) else 0)).
Proof.
  intros Hok Hr H1 H2 H3 H4. unfold ps_insert_rect.
  destruct (rect_vertices_spec (ps_orient s) hole r Hr) as [Hc Hw].
  destruct (ps_insert_range_spec s (rect_vertices (ps_orient s) hole r) (ps_orient s) Hok Hc
              (rect_vertices_int _ _ _ H1 H2 H3 H4)) as [A [B [C _]]].
  split; [exact A|]. split; [exact B|]. intros x y. rewrite C, Hw. reflexivity.
Qed.

(* ---------- boolean operators ---------- *)
Lemma bop_functor_spec f a b : bop_functor f a b = bop_fun f (a >? 0) (b >? 0).
Proof. destruct f; reflexivity. Qed.
Lemma bop_functor_00 f : bop_functor f 0 0 = false.
Proof. destruct f; reflexivity. Qed.

Lemma view_arg_spec o t : ps_ok t ->
  ps_ok (view_arg o t) /\ ps_orient (view_arg o t) = o /\
  StronglySorted pos_le (ps_data (view_arg o t)) /\
  (forall x y, wind o (ps_data (view_arg o t)) x y = wind (ps_orient t) (ps_data t) x y).
Proof.
  intros Hok. unfold view_arg.
  destruct (ps_insert_range_spec (ps_new o) (ps_data t) (ps_orient t) (ps_new_ok o)
              (ok_closed _ Hok) (ok_int _ Hok)) as [A [B [C _]]].
  destruct (ps_sort_spec _ A) as [O [E1 [_ [_ [P S]]]]].
  cbn [ps_new ps_orient ps_data] in *.
  split; [exact O|]. split; [rewrite E1; exact B|]. split; [exact S|].
  intros x y. rewrite (wind_cnt o _ _ x y (cnt_perm _ _ P)), C, wind_nil. lia.
Qed.

Lemma below_of_int V : dint V -> below_max INT_MAX V.
Proof.
  intros D. eapply Forall_impl; [|exact D]. intros v [[_ H1] [_ H2]]. split; assumption.
Qed.

(* result of a boolean scan of two sorted lists read with orientation o *)
Lemma boolean_result f o l1 l2 :
  closed l1 -> closed l2 -> dint l1 -> dint l2 ->
  StronglySorted pos_le l1 -> StronglySorted pos_le l2 ->
  exists out, applyBooleanBinaryOp (bop_functor f) INT_MAX l1 l2 = Some out /\
    canonical out /\ closed out /\ dint out /\
    forall x y, wind o out x y = b2z (bop_fun f (wind o l1 x y >? 0) (wind o l2 x y >? 0)).
Proof.
  intros C1 C2 D1 D2 S1 S2.
  destruct (applyBooleanBinaryOp_spec (bop_functor f) (bop_functor_00 f) INT_MAX l1 l2 S1 S2
              (below_of_int _ D2) (proj1 C1) (proj1 C2)) as [out [A1 [A2 A3]]].
  exists out. split; [exact A1|]. split; [exact A2|].
  split; [|split].
  - eapply (closed_of_cnt2 _ _ _ (fun a b => b2z (bop_functor f a b))); [|exact A3|exact C1|exact C2].
    rewrite bop_functor_00. reflexivity.
  - eapply (clean_coords2 _ _ _ (fun a b => b2z (bop_functor f a b)));
      [apply canonical_clean_ok; exact A2|exact A3|exact D1|exact D2].
  - intros x y. rewrite <- bop_functor_spec.
    apply (wind_map2 o out l1 l2 (fun a b => b2z (bop_functor f a b))). exact A3.
Qed.

Lemma ps_result_ok o out dirty unsorted : canonical out -> closed out -> dint out ->
  indicator01 out -> ps_ok (mk_ps o out dirty unsorted).
Proof.
  intros H1 H2 H3 H4. constructor; cbn [ps_data ps_dirty ps_unsorted]; intros.
  - exact H2.
  - exact H3.
  - apply canonical_sorted. exact H1.
  - split; [apply canonical_clean_ok; exact H1|exact H4].
Qed.

Lemma indicator_of_wind o out g : (forall x y, wind o out x y = b2z (g x y)) -> indicator01 out.
Proof.
  intros H x y. destruct o; cbn [wind] in H; [specialize (H y x)|specialize (H x y)];
    rewrite H; apply b2z_01.
Qed.

Lemma ps_assign_view_spec f a b : ps_ok a -> ps_ok b ->
  exists s, ps_assign_view f a b = Some s /\ ps_ok s /\ ps_orient s = ps_orient a /\
    ps_dirty s = false /\ ps_unsorted s = false /\ canonical (ps_data s) /\
    forall x y, wind (ps_orient a) (ps_data s) x y =
      b2z (bop_fun f (wind (ps_orient a) (ps_data a) x y >? 0) (wind (ps_orient b) (ps_data b) x y >? 0)).
Proof.
  intros Ha Hb. destruct (ps_sort_spec a Ha) as [Oa [_ [_ [_ [Pa Sa]]]]].
  unfold ps_assign_view, view_value. destruct (orient_eqb_spec (ps_orient a) (ps_orient b)) as [E|E].
  - destruct (ps_sort_spec b Hb) as [Ob [_ [_ [_ [Pb Sb]]]]].
    destruct (boolean_result f (ps_orient a) _ _ (ok_closed _ Oa) (ok_closed _ Ob) (ok_int _ Oa) (ok_int _ Ob) Sa Sb)
      as [out [R1 [R2 [R3 [R4 R5]]]]].
    rewrite R1. cbn [bind]. eexists. split; [reflexivity|]. cbn [ps_orient ps_data ps_dirty ps_unsorted].
    split; [apply ps_result_ok; try assumption; eapply indicator_of_wind; exact R5|].
    repeat split; try reflexivity; try apply R2.
    intros x y. rewrite R5, (wind_cnt _ _ _ x y (cnt_perm _ _ Pa)), (wind_cnt _ _ _ x y (cnt_perm _ _ Pb)), <- E.
    reflexivity.
  - destruct (view_arg_spec (ps_orient a) b Hb) as [Ob [_ [Sb Wb]]].
    destruct (boolean_result f (ps_orient a) _ _ (ok_closed _ Oa) (ok_closed _ Ob) (ok_int _ Oa) (ok_int _ Ob) Sa Sb)
      as [out [R1 [R2 [R3 [R4 R5]]]]].
    rewrite R1. cbn [bind]. eexists. split; [reflexivity|]. cbn [ps_orient ps_data ps_dirty ps_unsorted].
    split; [apply ps_result_ok; try assumption; eapply indicator_of_wind; exact R5|].
    repeat split; try reflexivity; try apply R2.
    intros x y. rewrite R5, (wind_cnt _ _ _ x y (cnt_perm _ _ Pa)), Wb. reflexivity.
Qed.

Lemma ps_clear_ok s : ps_ok (ps_clear s).
Proof. exact (ps_new_ok (ps_orient s)). Qed.

Lemma ps_bin_assign_spec f a b : ps_ok a -> ps_ok b ->
  exists s, ps_bin_assign f a b = Some s /\ ps_ok s /\ ps_orient s = ps_orient a /\
    forall x y, wind (ps_orient a) (ps_data s) x y =
      b2z (bop_fun f (wind (ps_orient a) (ps_data a) x y >? 0) (wind (ps_orient b) (ps_data b) x y >? 0)).
Proof.
  intros Ha Hb.
  destruct (view_arg_spec (ps_orient a) a Ha) as [Oa [_ [Sa Wa]]].
  destruct (view_arg_spec (ps_orient a) b Hb) as [Ob [_ [Sb Wb]]].
  destruct (boolean_result f (ps_orient a) _ _ (ok_closed _ Oa) (ok_closed _ Ob) (ok_int _ Oa) (ok_int _ Ob) Sa Sb)
    as [out [R1 [R2 [R3 [R4 R5]]]]].
  unfold ps_bin_assign. rewrite R1. cbn [bind]. eexists. split; [reflexivity|].
  destruct (ps_insert_range_spec (ps_clear a) out (ps_orient a) (ps_clear_ok a) R3 R4) as [A [B [C _]]].
  split; [exact A|]. split; [exact B|]. intros x y.
  cbn [ps_clear ps_orient ps_data] in C. rewrite C, wind_nil, R5, Wa, Wb. lia.
Qed.

(* ---------- move, transform, scale_up ---------- *)
Lemma bounded_wind_closed V W (g : Z * Z -> Z * Z) M :
  closed W -> (forall x y, cnt V x y = cnt W (fst (g (x, y))) (snd (g (x, y)))) ->
  (forall x y N, 0 <= N -> x < - (M + N) \/ M + N < x \/ y < - (M + N) \/ M + N < y ->
     fst (g (x, y)) < - N \/ N < fst (g (x, y)) \/ snd (g (x, y)) < - N \/ N < snd (g (x, y))) ->
  closed V.
Proof.
  intros C H HM. apply closed_bounded in C. destruct C as [N HN]. apply closed_bounded.
  exists (M + Z.max 0 N). intros x y Hxy. rewrite H. apply HN.
  specialize (HM x y (Z.max 0 N) ltac:(lia) Hxy). lia.
Qed.

Lemma closed_vshift da db V : closed V -> closed (map (vshift da db) V).
Proof.
  intros C. apply (bounded_wind_closed _ V (fun p => (fst p - da, snd p - db)) (Z.abs da + Z.abs db) C).
  - intros x y. cbn [fst snd]. apply cnt_vshift.
  - intros x y N HN H. cbn [fst snd]. lia.
Qed.
Lemma closed_vflip sx sy V : closed V -> closed (map (vflip sx sy) V).
Proof.
  intros C. apply (bounded_wind_closed _ V (fun p => (cflip sx (fst p), cflip sy (snd p))) 1 C).
  - intros x y. cbn [fst snd]. apply cnt_vflip. exact C.
  - intros x y N HN H. cbn [fst snd]. unfold cflip. destruct sx, sy; lia.
Qed.
Lemma closed_vscale k V : 0 < k -> closed V -> closed (map (vscale k) V).
Proof.
  intros Hk C. pose proof C as C0. apply closed_bounded in C. destruct C as [N HN]. apply closed_bounded.
  exists (k * (Z.max 0 N + 1)). intros x y H. rewrite cnt_vscale by exact Hk. apply HN.
  assert (Hlo : forall z, z < - (k * (Z.max 0 N + 1)) -> z / k < - N).
  { intros z Hz. apply Z.div_lt_upper_bound; [exact Hk|]. nia. }
  assert (Hhi : forall z, k * (Z.max 0 N + 1) < z -> N < z / k).
  { intros z Hz. enough (Z.max 0 N + 1 <= z / k) by lia. apply Z.div_le_lower_bound; lia. }
  destruct H as [H|[H|[H|H]]]; auto.
Qed.

Lemma ps_map_ok s h d dirty unsorted :
  closed (map h (ps_data s)) -> dint d -> d = map h (ps_data s) ->
  (unsorted = false -> StronglySorted pos_le (map h (ps_data s))) ->
  (dirty = false -> clean_ok (map h (ps_data s)) /\ indicator01 (map h (ps_data s))) ->
  ps_ok (mk_ps (ps_orient s) d dirty unsorted).
Proof.
  intros H1 H2 -> H4 H5. constructor; cbn [ps_data ps_dirty ps_unsorted]; assumption.
Qed.

Lemma ps_move_spec dx dy s : ps_ok s ->
  match ps_move dx dy s with
  | Ok s' => ps_ok s' /\ ps_orient s' = ps_orient s /\
      forall x y, wind (ps_orient s) (ps_data s') x y = wind (ps_orient s) (ps_data s) (x - dx) (y - dy)
  | Overflow => True
  | Undefined => False
  end.
Proof.
  intros Hok. unfold ps_move.
  assert (Hgen : forall da db,
    match (try d <- map_vertices (fun v =>
             try a <- chk (vx v + da); try b <- chk (vy v + db); Ok (a, (b, vc v))) (ps_data s);
           Ok (mk_ps (ps_orient s) d (ps_dirty s) (ps_unsorted s))) with
    | Ok s' => ps_ok s' /\ ps_orient s' = ps_orient s /\
        forall x y, cnt (ps_data s') x y = cnt (ps_data s) (x - da) (y - db)
    | Overflow => True
    | Undefined => False
    end).
  { intros da db. set (g := fun v => _).
    destruct (map_vertices g (ps_data s)) as [d| |] eqn:E; cbn [obind]; [|exact I|].
    - destruct (map_vertices_ok g (vshift da db) (ps_data s)) with (l' := d) as [Hd Hi]; [|exact E|].
      { intros v v'. unfold g. destruct (chk (vx v + da)) as [a| |] eqn:Ea; cbn [obind]; try discriminate.
        destruct (chk (vy v + db)) as [b| |] eqn:Eb; cbn [obind]; try discriminate.
        intros Ev. injection Ev as <-. apply chk_ok in Ea, Eb. destruct Ea as [-> Ia], Eb as [-> Ib].
        split; [reflexivity|]. split; assumption. }
      split; [|split; [reflexivity|]].
      + apply (ps_map_ok s (vshift da db)); try assumption.
        * apply closed_vshift. apply (ok_closed _ Hok).
        * intros U. apply sorted_map; [|apply (ok_sorted _ Hok U)].
          intros v w. unfold pos_le, vshift, vx, vy. cbn [fst snd]. lia.
        * intros D. destruct (ok_clean _ Hok D) as [C I01]. split.
          -- apply clean_ok_map; try assumption; intros v; try intros w;
               unfold vshift, vx, vy, vc; cbn [fst snd]; lia.
          -- intros x y. rewrite cnt_vshift. apply I01.
      + cbn [ps_data]. intros x y. rewrite Hd. apply cnt_vshift.
    - apply (map_vertices_def g (ps_data s)) in E; [exact E|].
      intros v. unfold g. pose proof (chk_not_undef (vx v + da)). destruct (chk (vx v + da)); cbn [obind]; try congruence.
      pose proof (chk_not_undef (vy v + db)). destruct (chk (vy v + db)); cbn [obind]; congruence. }
  destruct (ps_orient s) eqn:Eo; cbn [wind].
  - specialize (Hgen dy dx). destruct (try d <- _; _) as [s'| |]; try exact Hgen.
    destruct Hgen as [A [B C]]. split; [exact A|]. split; [exact B|]. intros x y. apply C.
  - specialize (Hgen dx dy). destruct (try d <- _; _) as [s'| |]; try exact Hgen.
Qed.

Lemma ps_scale_up_spec k s : 0 < k -> ps_ok s ->
  match ps_scale_up k s with
  | Ok s' => ps_ok s' /\ ps_orient s' = ps_orient s /\
      forall x y, wind (ps_orient s) (ps_data s') x y = wind (ps_orient s) (ps_data s) (x / k) (y / k)
  | Overflow => True
  | Undefined => False
  end.
Proof.
  intros Hk Hok. unfold ps_scale_up. set (g := fun v => _).
  destruct (map_vertices g (ps_data s)) as [d| |] eqn:E; cbn [obind]; [|exact I|].
  - destruct (map_vertices_ok g (vscale k) (ps_data s)) with (l' := d) as [Hd Hi]; [|exact E|].
    { intros v v'. unfold g. destruct (chk (vx v * k)) as [a| |] eqn:Ea; cbn [obind]; try discriminate.
      destruct (chk (vy v * k)) as [b| |] eqn:Eb; cbn [obind]; try discriminate.
      intros Ev. injection Ev as <-. apply chk_ok in Ea, Eb. destruct Ea as [-> Ia], Eb as [-> Ib].
      split; [reflexivity|]. split; assumption. }
    split; [|split; [reflexivity|]].
    + apply (ps_map_ok s (vscale k)); try assumption.
      * apply closed_vscale; [exact Hk|apply (ok_closed _ Hok)].
      * intros U. apply sorted_map; [|apply (ok_sorted _ Hok U)].
        intros v w. unfold pos_le, vscale, vx, vy. cbn [fst snd]. nia.
      * intros D. destruct (ok_clean _ Hok D) as [C I01]. split.
        -- apply clean_ok_map; try assumption; intros v; try intros w;
             unfold vscale, vx, vy, vc; cbn [fst snd]; try lia. nia.
        -- intros x y. rewrite cnt_vscale by exact Hk. apply I01.
    + cbn [ps_data]. intros x y. rewrite Hd. destruct (ps_orient s); cbn [wind]; apply cnt_vscale; exact Hk.
  - apply (map_vertices_def g (ps_data s)) in E; [exact E|].
    intros v. unfold g. pose proof (chk_not_undef (vx v * k)). destruct (chk (vx v * k)); cbn [obind]; try congruence.
    pose proof (chk_not_undef (vy v * k)). destruct (chk (vy v * k)); cbn [obind]; congruence.
Qed.

(* the vertex map of a transformation, vertical reading *)
Definition iso_flips (a : Z) : bool * bool * bool :=   (* flip x, flip y, swap *)
  match a with
  | 0 => (false, false, false) | 1 => (true, false, false)
  | 2 => (false, true, false) | 3 => (true, true, false)
  | 4 => (false, false, true) | 5 => (true, false, true)
  | 6 => (false, true, true) | _ => (true, true, true)
  end.
Definition iso_vertex (t : isometry) (v : vertex) : vertex :=
  let '(fx, fy, sw) := iso_flips (iso_atr t) in
  let v1 := vflip fx fy (vshift (- iso_px t) (- iso_py t) v) in
  if sw then vswap v1 else v1.
(* the cell map: cell d of the image comes from cell iso_cell t d *)
Definition iso_cell (t : isometry) (d : Z * Z) : Z * Z :=
  let '(fx, fy, sw) := iso_flips (iso_atr t) in
  let '(x, y) := if sw then (snd d, fst d) else d in
  (cflip fx x + iso_px t, cflip fy y + iso_py t).

Lemma maps_cell_iso t c d : 0 <= iso_atr t < 8 -> (maps_cell t c d <-> c = iso_cell t d).
Proof.
  intros H. destruct t as [a px py], c as [x y], d as [u v]. cbn [iso_atr] in H.
  unfold maps_cell, iso_cell, combine_dirs. cbn [iso_atr iso_px iso_py fst snd].
  atr_case H; cbn [atr_dirs iso_flips unit_vec fst snd cflip];
    (split; intros E; [|]; assert (E1 := f_equal fst E); assert (E2 := f_equal snd E); cbn [fst snd] in E1, E2;
     clear E; apply f_equal2; lia).
Qed.

Lemma cnt_iso t V x y : closed V ->
  cnt (map (iso_vertex t) V) x y = cnt V (fst (iso_cell t (x, y))) (snd (iso_cell t (x, y))).
Proof.
  intros C. unfold iso_vertex, iso_cell. destruct (iso_flips (iso_atr t)) as [[fx fy] sw].
  pose proof (closed_vshift (- iso_px t) (- iso_py t) V C) as Cs.
  destruct sw.
  - replace (map (fun v => vswap (vflip fx fy (vshift (- iso_px t) (- iso_py t) v))) V)
      with (map vswap (map (vflip fx fy) (map (vshift (- iso_px t) (- iso_py t)) V)))
      by (rewrite !map_map; reflexivity).
    rewrite cnt_vswap, cnt_vflip by exact Cs. rewrite cnt_vshift. cbn [fst snd].
    f_equal; lia.
  - replace (map (fun v => vflip fx fy (vshift (- iso_px t) (- iso_py t) v)) V)
      with (map (vflip fx fy) (map (vshift (- iso_px t) (- iso_py t)) V))
      by (rewrite !map_map; reflexivity).
    rewrite cnt_vflip by exact Cs. rewrite cnt_vshift. cbn [fst snd]. f_equal; lia.
Qed.
Lemma closed_iso t V : closed V -> closed (map (iso_vertex t) V).
Proof.
  intros C. apply (bounded_wind_closed _ V (iso_cell t) (Z.abs (iso_px t) + Z.abs (iso_py t) + 1) C).
  - intros x y. apply cnt_iso. exact C.
  - intros x y N HN H. unfold iso_cell. destruct (iso_flips (iso_atr t)) as [[fx fy] sw].
    destruct fx, fy, sw; unfold cflip; cbn [fst snd]; lia.
Qed.
Lemma clean_ok_iso t V : clean_ok V -> clean_ok (map (iso_vertex t) V).
Proof.
  apply clean_ok_map; intros v; try intros w; unfold iso_vertex;
    destruct (iso_flips (iso_atr t)) as [[fx fy] sw]; destruct fx, fy, sw;
    unfold vflip, vshift, vswap, vx, vy, vc; cbn [fst snd xorb]; lia.
Qed.

Definition iso_sign (a : Z) : Z :=
  let '(fx, fy, _) := iso_flips a in if xorb fx fy then -1 else 1.
Lemma get_directions_sign a : 0 <= a < 8 ->
  d2_get_sign (fst (get_directions a)) * d2_get_sign (snd (get_directions a)) = iso_sign a /\
  (negb (fst (get_directions a) =? EAST) || negb (snd (get_directions a) =? NORTH)) = negb (a =? 0).
Proof. intros H. atr_case H; split; reflexivity. Qed.

Lemma iso_transform_ok t x y a b : 0 <= iso_atr t < 8 -> iso_transform t x y = Ok (a, b) ->
  is_int a /\ is_int b /\
  forall c, (a, (b, c * iso_sign (iso_atr t))) = iso_vertex t (x, (y, c)).
Proof.
  intros H. unfold iso_transform.
  destruct (chk (y - iso_py t)) as [y1| |] eqn:Ey; cbn [obind]; try discriminate.
  destruct (chk (x - iso_px t)) as [x1| |] eqn:Ex; cbn [obind]; try discriminate.
  apply chk_ok in Ey, Ex. destruct Ey as [-> Iy], Ex as [-> Ix].
  rewrite atr_table by exact H.
  set (p := match iso_atr t with 0 => _ | _ => _ end).
  destruct p as [x2 y2] eqn:Ep. subst p.
  destruct (chk x2) as [x3| |] eqn:Ex; cbn [obind]; try discriminate.
  destruct (chk y2) as [y3| |] eqn:Ey; cbn [obind]; try discriminate.
  intros E. injection E as <- <-. apply chk_ok in Ey, Ex. destruct Ey as [-> Iy2], Ex as [-> Ix2].
  split; [exact Ix2|]. split; [exact Iy2|]. intros c.
  unfold iso_vertex, iso_sign. destruct t as [k px py]. cbn [iso_atr iso_px iso_py] in *.
  atr_case H; cbn [iso_flips xorb]; injection Ep as <- <-;
    unfold vflip, vshift, vswap, vx, vy, vc; cbn [fst snd xorb]; repeat f_equal; lia.
Qed.
Lemma iso_transform_def t x y : iso_transform t x y <> Undefined.
Proof.
  unfold iso_transform. pose proof (chk_not_undef (y - iso_py t)). pose proof (chk_not_undef (x - iso_px t)).
  destruct (chk (y - iso_py t)); cbn [obind]; try congruence.
  destruct (chk (x - iso_px t)); cbn [obind]; try congruence.
  destruct (atr_transform _ _) as [x2 y2]. pose proof (chk_not_undef x2). pose proof (chk_not_undef y2).
  destruct (chk x2); cbn [obind]; try congruence. destruct (chk y2); cbn [obind]; congruence.
Qed.

Definition iso_vertex_o (o : orient) (t : isometry) (v : vertex) : vertex :=
  match o with Vertical => iso_vertex t v | Horizontal => vswap (iso_vertex t (vswap v)) end.
Lemma map_iso_vertex_o o t V :
  map (iso_vertex_o o t) V =
  match o with Vertical => map (iso_vertex t) V | Horizontal => map vswap (map (iso_vertex t) (map vswap V)) end.
Proof. destruct o; unfold iso_vertex_o; [rewrite !map_map|]; reflexivity. Qed.

Lemma ps_transform_spec t s : 0 <= iso_atr t < 8 -> ps_ok s ->
  match ps_transform t s with
  | Ok s' => ps_ok s' /\ ps_orient s' = ps_orient s /\
      forall x y, wind (ps_orient s) (ps_data s') x y =
        wind (ps_orient s) (ps_data s) (fst (iso_cell t (x, y))) (snd (iso_cell t (x, y)))
  | Overflow => True
  | Undefined => False
  end.
Proof.
  intros Ht Hok. unfold ps_transform. destruct (get_directions_sign (iso_atr t) Ht) as [Hs Hd].
  destruct (get_directions (iso_atr t)) as [dir1 dir2]. cbn [fst snd] in Hs, Hd. rewrite Hs, Hd.
  set (g := fun v => _).
  assert (Hcl : closed (map (iso_vertex_o (ps_orient s) t) (ps_data s))).
  { rewrite map_iso_vertex_o. pose proof (ok_closed _ Hok) as C. destruct (ps_orient s).
    - apply closed_vswap, closed_iso, closed_vswap. exact C.
    - apply closed_iso. exact C. }
  assert (Hw : forall x y, wind (ps_orient s) (map (iso_vertex_o (ps_orient s) t) (ps_data s)) x y =
        wind (ps_orient s) (ps_data s) (fst (iso_cell t (x, y))) (snd (iso_cell t (x, y)))).
  { intros x y. rewrite map_iso_vertex_o. pose proof (ok_closed _ Hok) as C. destruct (ps_orient s); cbn [wind].
    - rewrite cnt_vswap, cnt_iso by (apply closed_vswap; exact C). rewrite cnt_vswap. reflexivity.
    - rewrite cnt_iso by exact C. reflexivity. }
  destruct (map_vertices g (ps_data s)) as [d| |] eqn:E; cbn [obind]; [|exact I|].
  - destruct (map_vertices_ok g (iso_vertex_o (ps_orient s) t) (ps_data s)) with (l' := d) as [Hdd Hi]; [|exact E|].
    { intros v v'. unfold g, iso_vertex_o. destruct v as [a0 [b0 c0]], (ps_orient s); unfold vx, vy, vc; cbn [fst snd].
      - destruct (iso_transform t b0 a0) as [[b a]| |] eqn:Et; cbn [obind]; try discriminate.
        intros Ev. injection Ev as <-. destruct (iso_transform_ok t b0 a0 b a Ht Et) as [I1 [I2 I3]].
        specialize (I3 c0). change (vswap (a0, (b0, c0))) with (b0, (a0, c0)). rewrite <- I3.
        split; [reflexivity|]. split; assumption.
      - destruct (iso_transform t a0 b0) as [[a b]| |] eqn:Et; cbn [obind]; try discriminate.
        intros Ev. injection Ev as <-. destruct (iso_transform_ok t a0 b0 a b Ht Et) as [I1 [I2 I3]].
        specialize (I3 c0). rewrite <- I3. split; [reflexivity|]. split; assumption. }
    split; [|split; [reflexivity|]].
    + apply (ps_map_ok s (iso_vertex_o (ps_orient s) t)); try assumption.
      * destruct (Z.eqb_spec (iso_atr t) 0) as [Ea|Ea]; cbn [negb]; [|discriminate].
        intros U. apply sorted_map; [|apply (ok_sorted _ Hok U)].
        intros v w. unfold iso_vertex_o, iso_vertex. rewrite Ea. cbn [iso_flips].
        destruct (ps_orient s); unfold pos_le, vswap, vflip, vshift, vx, vy; cbn [fst snd]; lia.
      * intros D. destruct (ok_clean _ Hok D) as [C I01]. split.
        -- rewrite map_iso_vertex_o. destruct (ps_orient s).
           ++ apply clean_ok_vswap, clean_ok_iso, clean_ok_vswap. exact C.
           ++ apply clean_ok_iso. exact C.
        -- intros x y. destruct (ps_orient s); cbn [wind] in Hw;
             [specialize (Hw y x)|specialize (Hw x y)]; rewrite Hw; apply I01.
    + cbn [ps_data]. intros x y. rewrite Hdd. apply Hw.
  - apply (map_vertices_def g (ps_data s)) in E; [exact E|].
    intros v. unfold g. destruct (ps_orient s).
    + pose proof (iso_transform_def t (vy v) (vx v)). destruct (iso_transform t (vy v) (vx v)) as [[? ?]| |]; cbn [obind]; congruence.
    + pose proof (iso_transform_def t (vx v) (vy v)). destruct (iso_transform t (vx v) (vy v)) as [[? ?]| |]; cbn [obind]; congruence.
Qed.

(* ---------- self_xor, self_intersect ---------- *)
Lemma odd_01 c : c = 0 \/ c = 1 -> b2z ((c >? 0) && Z.odd c) = c.
Proof. intros [-> | ->]; reflexivity. Qed.

Lemma ps_self_xor_spec s : ps_ok s -> exists s', ps_self_xor s = Some s' /\
  ps_ok s' /\ ps_orient s' = ps_orient s /\ ps_dirty s' = false /\
  forall x y, cnt (ps_data s') x y = b2z ((cnt (ps_data s) x y >? 0) && Z.odd (cnt (ps_data s) x y)).
Proof.
  intros Hok. destruct (ps_sort_spec s Hok) as [O [E1 [E2 [E3 [P S]]]]].
  unfold ps_self_xor. destruct (ps_dirty (ps_sort s)) eqn:D.
  - destruct (applyBooleanOr_unary_spec INT_MAX _ S (proj1 (ok_closed _ O))) as [out [A1 [A2 A3]]].
    rewrite A1. cbn [bind]. eexists. split; [reflexivity|]. cbn [ps_orient ps_data ps_dirty ps_unsorted].
    assert (A4 : forall x y, cnt out x y = b2z ((cnt (ps_data s) x y >? 0) && Z.odd (cnt (ps_data s) x y))).
    { intros x y. rewrite A3, (cnt_perm _ _ P). reflexivity. }
    split; [|split; [exact E1|split; [reflexivity|exact A4]]].
    apply ps_result_ok; try assumption.
    + eapply (closed_of_cnt _ _ (fun c => b2z ((c >? 0) && Z.odd c))); [reflexivity|exact A4|apply (ok_closed _ Hok)].
    + eapply (clean_coords _ _ (fun c => b2z ((c >? 0) && Z.odd c))); [apply canonical_clean_ok; exact A2|exact A4|apply (ok_int _ Hok)].
    + intros x y. rewrite A4. apply b2z_01.
  - eexists. split; [reflexivity|]. split; [exact O|]. split; [exact E1|]. split; [exact D|].
    destruct (ok_clean _ O D) as [C I]. intros x y. rewrite <- (cnt_perm _ _ P).
    symmetry. apply odd_01. apply I.
Qed.

Lemma dint_cnt_outside V x y : dint V -> closed V ->
  cnt V x y <> 0 -> INT_MIN <= x < INT_MAX /\ INT_MIN <= y < INT_MAX.
Proof.
  intros D [Hc Hr] H.
  assert (H1 : ~ x < INT_MIN).
  { intros L. apply H. apply cnt_left. eapply Forall_impl; [|exact D]. intros v [[? ?] [? ?]]. lia. }
  assert (H2 : ~ y < INT_MIN).
  { intros L. apply H. apply cnt_bottom. eapply Forall_impl; [|exact D]. intros v [[? ?] [? ?]]. lia. }
  assert (H3 : ~ INT_MAX <= x).
  { intros L. apply H. rewrite cnt_right; [apply rows_closed_prefix; exact Hr|].
    eapply Forall_impl; [|exact D]. intros v [[? ?] [? ?]]. lia. }
  assert (H4 : ~ INT_MAX <= y).
  { intros L. apply H. rewrite cnt_top; [apply cols_closed_prefix; exact Hc|].
    eapply Forall_impl; [|exact D]. intros v [[? ?] [? ?]]. lia. }
  lia.
Qed.

Lemma ps_self_intersect_spec s : ps_ok s -> exists s', ps_self_intersect s = Some s' /\
  ps_ok s' /\ ps_orient s' = ps_orient s /\ ps_dirty s' = false /\
  forall x y, wind (ps_orient s) (ps_data s') x y =
    if ps_dirty s then b2z (wind (ps_orient s) (ps_data s) x y >? 1) else wind (ps_orient s) (ps_data s) x y.
Proof.
  intros Hok. destruct (ps_sort_spec s Hok) as [O [E1 [E2 [E3 [P S]]]]].
  unfold ps_self_intersect. rewrite E2. destruct (ps_dirty s) eqn:D.
  - set (r := mk_rect INT_MIN INT_MAX INT_MIN INT_MAX).
    assert (Hr : rect_ok r) by (unfold rect_ok, r, INT_MIN, INT_MAX; cbn [xl xh yl yh]; lia).
    assert (Imin : is_int INT_MIN) by (unfold is_int, INT_MIN, INT_MAX; lia).
    assert (Imax : is_int INT_MAX) by (unfold is_int, INT_MIN, INT_MAX; lia).
    destruct (ps_insert_rect_spec (ps_sort s) r true O Hr Imin Imax Imin Imax) as [A [B C]].
    destruct (ps_clean_spec _ A) as [s' [K1 [K2 [K3 [K4 [K5 [K6 K7]]]]]]].
    exists s'. split; [exact K1|]. split; [exact K2|]. rewrite K3, B, E1.
    split; [reflexivity|]. split; [exact K4|]. intros x y.
    rewrite (wind_map (ps_orient s) _ _ (fun c => b2z (c >? 0)) x y K7).
    rewrite E1 in C. rewrite C. rewrite (wind_cnt _ _ _ x y (cnt_perm _ _ P)).
    unfold in_rect, r. cbn [xl xh yl yh].
    destruct (Z.eq_dec (wind (ps_orient s) (ps_data s) x y) 0) as [Z0|NZ].
    + rewrite Z0. destruct ((INT_MIN <=? x) && (x <? INT_MAX) && (INT_MIN <=? y) && (y <? INT_MAX)); reflexivity.
    + assert (In : INT_MIN <= x < INT_MAX /\ INT_MIN <= y < INT_MAX).
      { destruct (ps_orient s); cbn [wind] in NZ;
          apply (dint_cnt_outside _ _ _ (ok_int _ Hok) (ok_closed _ Hok)) in NZ; lia. }
      replace ((INT_MIN <=? x) && (x <? INT_MAX) && (INT_MIN <=? y) && (y <? INT_MAX)) with true by lia.
      f_equal. lia.
  - exists (ps_sort s). split; [reflexivity|]. split; [exact O|]. split; [exact E1|].
    split; [exact E2|]. intros x y. apply wind_cnt. apply cnt_perm. exact P.
Qed.

(* ---------- queries ---------- *)
Lemma canonical_cnt_zero V : canonical V -> (forall x y, cnt V x y = 0) -> V = [].
Proof.
  intros C H. apply canonical_unique; [exact C| |intros x y; rewrite H; reflexivity].
  split; constructor.
Qed.
Lemma wind_all_iff o V (P : Z -> Prop) :
  (forall x y, P (wind o V x y)) <-> (forall x y, P (cnt V x y)).
Proof. destruct o; cbn [wind]; split; intros H x y; apply H. Qed.

Lemma ps_empty_spec s : ps_ok s -> exists b s', ps_empty s = Some (b, s') /\ ps_clean s = Some s' /\
  (b = true <-> forall x y, ~ 0 < wind (ps_orient s) (ps_data s) x y).
Proof.
  intros Hok. destruct (ps_clean_spec s Hok) as [s' [K1 [K2 [K3 [K4 [K5 [K6 K7]]]]]]].
  unfold ps_empty. rewrite K1. cbn [bind]. eexists _, s'. split; [reflexivity|]. split; [reflexivity|].
  rewrite (wind_all_iff _ _ (fun c => ~ 0 < c)).
  destruct (ps_data s') as [|v l] eqn:E.
  - split; [|reflexivity]. intros _ x y. specialize (K7 x y). cbn [cnt] in K7.
    destruct (Z.gtb_spec (cnt (ps_data s) x y) 0); cbn [b2z] in K7; lia.
  - split; [discriminate|]. intros H. exfalso.
    assert (E2 : v :: l = []); [|discriminate E2].
    apply canonical_cnt_zero; [exact K6|]. intros x y. rewrite K7. specialize (H x y).
    destruct (Z.gtb_spec (cnt (ps_data s) x y) 0); [lia|reflexivity].
Qed.

Lemma data_eqb_spec a : forall b, data_eqb a b = true <-> a = b.
Proof.
  induction a as [|v a IH]; intros [|w b]; cbn [data_eqb]; try (split; [discriminate|discriminate]).
  - split; reflexivity.
  - split.
    + intros H. apply andb_prop in H. destruct H as [H1 H2]. apply IH in H2. subst b. f_equal.
      apply vertex_eq; lia.
    + intros E. injection E as <- <-. rewrite !Z.eqb_refl. cbn [andb]. apply IH. reflexivity.
Qed.

Lemma ps_eq_spec s t : ps_ok s -> ps_ok t -> ps_orient s = ps_orient t ->
  exists b s' t', ps_eq s t = Some (b, (s', t')) /\ ps_clean s = Some s' /\ ps_clean t = Some t' /\
  (b = true <-> forall x y, 0 < wind (ps_orient s) (ps_data s) x y <-> 0 < wind (ps_orient t) (ps_data t) x y).
Proof.
  intros Hs Ht Eo.
  destruct (ps_clean_spec s Hs) as [s' [K1 [K2 [K3 [K4 [K5 [K6 K7]]]]]]].
  destruct (ps_clean_spec t Ht) as [t' [L1 [L2 [L3 [L4 [L5 [L6 L7]]]]]]].
  unfold ps_eq. rewrite <- Eo, orient_eqb_refl, K1, L1. cbn [bind].
  eexists _, s', t'. split; [reflexivity|]. split; [reflexivity|]. split; [reflexivity|].
  rewrite data_eqb_spec.
  assert (Hw : (forall x y, 0 < wind (ps_orient s) (ps_data s) x y <-> 0 < wind (ps_orient s) (ps_data t) x y) <->
               (forall x y, 0 < cnt (ps_data s) x y <-> 0 < cnt (ps_data t) x y)).
  { destruct (ps_orient s); cbn [wind]; split; intros H x y; apply H. }
  rewrite Hw. split.
  - intros E x y. specialize (K7 x y). specialize (L7 x y). rewrite E in K7. rewrite K7 in L7.
    destruct (Z.gtb_spec (cnt (ps_data s) x y) 0), (Z.gtb_spec (cnt (ps_data t) x y) 0);
      cbn [b2z] in L7; try discriminate L7; lia.
  - intros H. apply canonical_unique; [exact K6|exact L6|]. intros x y. rewrite K7, L7.
    specialize (H x y). f_equal. lia.
Qed.

Lemma ps_assign_set_spec o t : ps_ok t ->
  ps_ok (ps_assign_set o t) /\ ps_orient (ps_assign_set o t) = o /\
  forall x y, wind o (ps_data (ps_assign_set o t)) x y = wind (ps_orient t) (ps_data t) x y.
Proof.
  intros Ht. unfold ps_assign_set.
  destruct (ps_insert_range_spec (ps_clear (ps_new o)) (ps_data t) (ps_orient t) (ps_clear_ok _)
              (ok_closed _ Ht) (ok_int _ Ht)) as [A [B [C _]]].
  cbn [ps_clear ps_new ps_orient ps_data] in *.
  split; [exact A|]. split; [exact B|]. intros x y. rewrite C, wind_nil. lia.
Qed.

Lemma ps_equivalence_spec s t : ps_ok s -> ps_ok t ->
  exists b, ps_equivalence s t = Some b /\
  (b = true <-> forall x y, 0 < wind (ps_orient s) (ps_data s) x y <-> 0 < wind (ps_orient t) (ps_data t) x y).
Proof.
  intros Hs Ht.
  destruct (ps_assign_set_spec Horizontal s Hs) as [A1 [A2 A3]].
  destruct (ps_assign_set_spec Horizontal t Ht) as [B1 [B2 B3]].
  destruct (ps_eq_spec _ _ A1 B1 (eq_trans A2 (eq_sym B2))) as [b [s' [t' [E1 [_ [_ E2]]]]]].
  unfold ps_equivalence. rewrite E1. cbn [bind]. exists b. split; [reflexivity|].
  rewrite E2, A2, B2. split; intros H x y; specialize (H x y); rewrite ?A3, ?B3 in *; exact H.
Qed.

(* ---------- extents ---------- *)
(* the rectangle r is the exact range of the points of the list l *)
Definition spans (r : rect) (l : list (Z * Z)) : Prop :=
  (forall p, In p l -> xl r <= fst p <= xh r /\ yl r <= snd p <= yh r) /\
  (exists p, In p l /\ fst p = xl r) /\ (exists p, In p l /\ fst p = xh r) /\
  (exists p, In p l /\ snd p = yl r) /\ (exists p, In p l /\ snd p = yh r).

Lemma spans_encompass r l p : spans r l -> spans (rect_encompass r p) (l ++ [p]).
Proof.
  intros [H0 [[p1 [I1 E1]] [[p2 [I2 E2]] [[p3 [I3 E3]] [p4 [I4 E4]]]]]].
  unfold rect_encompass, ivl_encompass, spans. cbn [fst snd xl xh yl yh].
  assert (Hl : forall q, In q l -> In q (l ++ [p])) by (intros q Hq; apply in_or_app; left; exact Hq).
  assert (Hp : In p (l ++ [p])) by (apply in_or_app; right; left; reflexivity).
  split; [|split; [|split; [|split]]].
  - intros q Hq. apply in_app_or in Hq. destruct Hq as [Hq|[<-|[]]]; [specialize (H0 q Hq)|]; lia.
  - destruct (Z.le_gt_cases (xl r) (fst p)); [exists p1|exists p]; split; auto; lia.
  - destruct (Z.le_gt_cases (fst p) (xh r)); [exists p2|exists p]; split; auto; lia.
  - destruct (Z.le_gt_cases (yl r) (snd p)); [exists p3|exists p]; split; auto; lia.
  - destruct (Z.le_gt_cases (snd p) (yh r)); [exists p4|exists p]; split; auto; lia.
Qed.
Lemma spans_fold o l : forall r l0, spans r l0 ->
  spans (fold_left (fun r w => rect_encompass r (vertex_point o w)) l r) (l0 ++ map (vertex_point o) l).
Proof.
  induction l as [|v l IH]; intros r l0 H; cbn [fold_left map].
  - rewrite app_nil_r. exact H.
  - specialize (IH _ _ (spans_encompass r l0 (vertex_point o v) H)).
    rewrite <- app_assoc in IH. exact IH.
Qed.
Lemma spans_ext r l l' : (forall p, In p l <-> In p l') -> spans r l -> spans r l'.
Proof.
  intros E [H0 [[p1 [I1 E1]] [[p2 [I2 E2]] [[p3 [I3 E3]] [p4 [I4 E4]]]]]].
  split; [intros p Hp; apply H0; apply E; exact Hp|].
  split; [exists p1|split; [exists p2|split; [exists p3|exists p4]]]; split; try assumption; apply E; assumption.
Qed.

Lemma in_removelast_last {A} (l : list A) (d x : A) : l <> [] -> (In x l <-> In x (removelast l) \/ x = last l d).
Proof.
  intros Hl. rewrite (app_removelast_last d Hl) at 1. rewrite in_app_iff. cbn [In].
  split; intros [H|H]; auto. destruct H as [H|[]]; auto.
Qed.

(* the vertical reading of oriented data *)
Definition points (o : orient) (V : list vertex) : list (Z * Z) := map (vertex_point o) V.
Definition vert (o : orient) (V : list vertex) : list vertex :=
  match o with Vertical => V | Horizontal => map vswap V end.
Lemma wind_vert o V x y : wind o V x y = cnt (vert o V) x y.
Proof. destruct o; cbn [wind vert]; [rewrite cnt_vswap|]; reflexivity. Qed.
Lemma points_vert o V : points o V = map (fun v => (vx v, vy v)) (vert o V).
Proof. destruct o; unfold points; cbn [vert]; [rewrite map_map|]; reflexivity. Qed.

Lemma spans_bounding_box V r : clean_ok V -> closed V -> indicator01 V ->
  spans r (map (fun v => (vx v, vy v)) V) -> bounding_box (fun x y => 0 < cnt V x y) r.
Proof.
  intros C [Hc Hr] I01 [H0 [[p1 [I1 E1]] [[p2 [I2 E2]] [[p3 [I3 E3]] [p4 [I4 E4]]]]]].
  assert (F : Forall (fun v => xl r <= vx v <= xh r /\ yl r <= vy v <= yh r) V).
  { apply Forall_forall. intros v Hv. apply (H0 (vx v, vy v)).
    apply in_map_iff. exists v. split; [reflexivity|exact Hv]. }
  assert (Left : forall x y, x < xl r -> cnt V x y = 0).
  { intros x y L. apply cnt_left. eapply Forall_impl; [|exact F]. intros v Hv. cbn beta in *. lia. }
  assert (Bot : forall x y, y < yl r -> cnt V x y = 0).
  { intros x y L. apply cnt_bottom. eapply Forall_impl; [|exact F]. intros v Hv. cbn beta in *. lia. }
  assert (Right : forall x y, xh r <= x -> cnt V x y = 0).
  { intros x y L. rewrite cnt_right; [apply rows_closed_prefix; exact Hr|].
    eapply Forall_impl; [|exact F]. intros v Hv. cbn beta in *. lia. }
  assert (Top : forall x y, yh r <= y -> cnt V x y = 0).
  { intros x y L. rewrite cnt_top; [apply cols_closed_prefix; exact Hc|].
    eapply Forall_impl; [|exact F]. intros v Hv. cbn beta in *. lia. }
  apply in_map_iff in I1, I2, I3, I4.
  destruct I1 as [v1 [<- I1]], I2 as [v2 [<- I2]], I3 as [v3 [<- I3]], I4 as [v4 [<- I4]].
  cbn [fst snd] in *.
  split; [|split; [|split; [|split]]].
  - intros x y Hp.
    assert (~ x < xl r) by (intros L; rewrite (Left x y L) in Hp; lia).
    assert (~ y < yl r) by (intros L; rewrite (Bot x y L) in Hp; lia).
    assert (~ xh r <= x) by (intros L; rewrite (Right x y L) in Hp; lia).
    assert (~ yh r <= y) by (intros L; rewrite (Top x y L) in Hp; lia).
    unfold in_rect. lia.
  - pose proof (clean_ptotal_nonzero V v1 C I1) as Hp. rewrite ptotal_cnt, E1 in Hp.
    rewrite !(Left (xl r - 1)) in Hp by lia.
    destruct (I01 (xl r) (vy v1)), (I01 (xl r) (vy v1 - 1)).
    + lia. + exists (vy v1 - 1). lia. + exists (vy v1). lia. + lia.
  - pose proof (clean_ptotal_nonzero V v2 C I2) as Hp. rewrite ptotal_cnt, E2 in Hp.
    rewrite !(Right (xh r)) in Hp by lia.
    destruct (I01 (xh r - 1) (vy v2)), (I01 (xh r - 1) (vy v2 - 1)).
    + lia. + exists (vy v2 - 1). lia. + exists (vy v2). lia. + lia.
  - pose proof (clean_ptotal_nonzero V v3 C I3) as Hp. rewrite ptotal_cnt, E3 in Hp.
    rewrite !(Bot _ (yl r - 1)) in Hp by lia.
    destruct (I01 (vx v3) (yl r)), (I01 (vx v3 - 1) (yl r)).
    + lia. + exists (vx v3 - 1). lia. + exists (vx v3). lia. + lia.
  - pose proof (clean_ptotal_nonzero V v4 C I4) as Hp. rewrite ptotal_cnt, E4 in Hp.
    rewrite !(Top _ (yh r)) in Hp by lia.
    destruct (I01 (vx v4) (yh r - 1)), (I01 (vx v4 - 1) (yh r - 1)).
    + lia. + exists (vx v4 - 1). lia. + exists (vx v4). lia. + lia.
Qed.

Lemma ps_extents_spec s : ps_ok s -> exists o s', ps_extents s = Some (o, s') /\ ps_clean s = Some s' /\
  match o with
  | None => forall x y, ~ 0 < wind (ps_orient s) (ps_data s) x y
  | Some r => bounding_box (fun x y => 0 < wind (ps_orient s) (ps_data s) x y) r
  end.
Proof.
  intros Hok. destruct (ps_clean_spec s Hok) as [s' [K1 [K2 [K3 [K4 [K5 [K6 K7]]]]]]].
  unfold ps_extents. rewrite K1. cbn [bind].
  assert (Hpos : forall x y, 0 < wind (ps_orient s) (ps_data s') x y <-> 0 < wind (ps_orient s) (ps_data s) x y).
  { intros x y. rewrite (wind_map (ps_orient s) _ _ (fun c => b2z (c >? 0)) x y K7).
    destruct (Z.gtb_spec (wind (ps_orient s) (ps_data s) x y) 0); cbn [b2z]; lia. }
  destruct (ps_data s') as [|v0 rest] eqn:E.
  - exists None, s'. split; [reflexivity|]. split; [reflexivity|].
    intros x y H. apply Hpos in H. rewrite wind_nil in H. lia.
  - eexists (Some _), s'. split; [reflexivity|]. split; [reflexivity|].
    rewrite K3. set (o := ps_orient s) in *.
    set (p := vertex_point o v0). set (q := vertex_point o (last rest v0)).
    assert (S0 : spans (mk_rect (fst (ivl_construct (fst p) (fst q))) (snd (ivl_construct (fst p) (fst q)))
                          (fst (ivl_construct (snd p) (snd q))) (snd (ivl_construct (snd p) (snd q)))) [p; q]).
    { unfold ivl_construct, spans. cbn [xl xh yl yh].
      assert (Ip : In p [p; q]) by (left; reflexivity). assert (Iq : In q [p; q]) by (right; left; reflexivity).
      destruct (Z.gtb_spec (fst p) (fst q)), (Z.gtb_spec (snd p) (snd q)); cbn [fst snd];
        (split; [intros z [<-|[<-|[]]]; lia|]);
        repeat split; eauto. }
    pose proof (spans_fold o (removelast rest) _ _ S0) as S1.
    assert (S2 : spans (fold_left (fun r w => rect_encompass r (vertex_point o w)) (removelast rest)
        (mk_rect (fst (ivl_construct (fst p) (fst q))) (snd (ivl_construct (fst p) (fst q)))
                 (fst (ivl_construct (snd p) (snd q))) (snd (ivl_construct (snd p) (snd q)))))
        (points o (v0 :: rest))).
    { eapply spans_ext; [|exact S1]. intros z. unfold points. cbn [map]. rewrite in_app_iff. cbn [In].
      destruct rest as [|v1 rest'].
      - cbn [last removelast map In] in *. unfold q. cbn [last]. tauto.
      - rewrite !in_map_iff. fold p.
        split.
        + intros [[H|[H|[]]]|[w [H1 H2]]]; [left; exact H| |].
          * right. exists (last (v1 :: rest') v0). split; [exact H|].
            apply (in_removelast_last _ v0); [discriminate|right; reflexivity].
          * right. exists w. split; [exact H1|]. apply (in_removelast_last _ v0); [discriminate|left; exact H2].
        + intros [H|[w [H1 H2]]]; [left; left; exact H|].
          apply (in_removelast_last _ v0) in H2; [|discriminate]. destruct H2 as [H2|H2].
          * right. exists w. split; assumption.
          * left. right. left. rewrite <- H1, H2. reflexivity. }
    rewrite points_vert in S2.
    assert (B : bounding_box (fun x y => 0 < cnt (vert o (v0 :: rest)) x y)
       (fold_left (fun r w => rect_encompass r (vertex_point o w)) (removelast rest)
        (mk_rect (fst (ivl_construct (fst p) (fst q))) (snd (ivl_construct (fst p) (fst q)))
                 (fst (ivl_construct (snd p) (snd q))) (snd (ivl_construct (snd p) (snd q)))))).
    { apply spans_bounding_box; try exact S2.
      - destruct o; cbn [vert]; [apply clean_ok_vswap|]; apply canonical_clean_ok; exact K6.
      - pose proof (ok_closed _ K2) as C. rewrite E in C. destruct o; cbn [vert]; [apply closed_vswap|]; exact C.
      - destruct (ok_clean _ K2 K4) as [_ I]. rewrite E in I.
        destruct o; cbn [vert]; [|exact I]. intros x y. rewrite cnt_vswap. apply I. }
    destruct B as [B0 [[b1 B1] [[b2 B2] [[b3 B3] [b4 B4]]]]].
    rewrite <- wind_vert in B1, B2, B3, B4.
    split; [|split; [|split; [|split]]].
    + intros x y H. apply B0. rewrite <- wind_vert. apply Hpos. exact H.
    + exists b1. apply Hpos. exact B1.
    + exists b2. apply Hpos. exact B2.
    + exists b3. apply Hpos. exact B3.
    + exists b4. apply Hpos. exact B4.
Qed.
