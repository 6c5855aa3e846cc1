(* bloat2 and shrink2 compute the Minkowski sum and its dual. *)
From Verif Require Import Base Scan90Spec BoolOpModel VertexLemmas BoolOpProofs IsoSpec IsoModel IsoProofs
  Set90Spec Set90Model Set90Lemmas Set90Proofs Set90History Set90Cor
  RectFormSpec RectFormModel RectFormLemmas RectFormEdge RectFormProofs RectFormCor ResizeSpec ResizeModel.
From Coq Require Import Sorting.Permutation.

Definition rect_int (r : rect) : Prop := is_int (xl r) /\ is_int (xh r) /\ is_int (yl r) /\ is_int (yh r).
Definition conv (c r : rect) : rect := mk_rect (xl r + xl c) (xh r + xh c) (yl r + yl c) (yh r + yh c).

(* ---------- checked maps ---------- *)
Lemma mk4_cases a b c d :
  match (try a' <- chk a; try b' <- chk b; try c' <- chk c; try d' <- chk d; Ok (mk_rect a' b' c' d')) with
  | Ok q => q = mk_rect a b c d /\ rect_int q
  | Overflow => ~ (is_int a /\ is_int b /\ is_int c /\ is_int d)
  | Undefined => False
  end.
Proof.
  unfold is_int, rect_int, chk.
  destruct (Z.leb_spec INT_MIN a), (Z.leb_spec a INT_MAX); cbn [andb obind]; try lia.
  destruct (Z.leb_spec INT_MIN b), (Z.leb_spec b INT_MAX); cbn [andb obind]; try lia.
  destruct (Z.leb_spec INT_MIN c), (Z.leb_spec c INT_MAX); cbn [andb obind]; try lia.
  destruct (Z.leb_spec INT_MIN d), (Z.leb_spec d INT_MAX); cbn [andb obind]; try lia.
  split; [reflexivity|]. cbn [xl xh yl yh]. unfold is_int. lia.
Qed.
Lemma rect_convolve_cases r c :
  match rect_convolve r c with
  | Ok q => q = conv c r /\ rect_int q
  | Overflow => ~ rect_int (conv c r)
  | Undefined => False
  end.
Proof. apply mk4_cases. Qed.
Lemma rect_bloat_cases r v :
  match rect_bloat r v with
  | Ok q => q = mk_rect (xl r - v) (xh r + v) (yl r - v) (yh r + v) /\ rect_int q
  | Overflow => ~ rect_int (mk_rect (xl r - v) (xh r + v) (yl r - v) (yh r + v))
  | Undefined => False
  end.
Proof. apply mk4_cases. Qed.
Lemma map_convolve_cases c l :
  match map_rects (fun r => rect_convolve r c) l with
  | Ok l' => l' = map (conv c) l /\ Forall rect_int l'
  | Overflow => exists r, In r l /\ ~ rect_int (conv c r)
  | Undefined => False
  end.
Proof.
  induction l as [|r l IH]; cbn [map_rects map]; [split; [reflexivity|constructor]|].
  pose proof (rect_convolve_cases r c) as Hr. destruct (rect_convolve r c) as [q| |]; cbn [obind].
  - destruct Hr as [-> Hq]. destruct (map_rects (fun r0 => rect_convolve r0 c) l) as [l'| |]; cbn [obind].
    + destruct IH as [-> H]. split; [reflexivity|]. constructor; assumption.
    + destruct IH as [r0 [H1 H2]]. exists r0. split; [right; exact H1|exact H2].
    + exact IH.
  - exists r. split; [left; reflexivity|exact Hr].
  - exact Hr.
Qed.

(* ---------- one convolved rectangle ---------- *)
Lemma conv_cell w e s n r x y : solid r -> 0 <= w -> 0 <= e -> 0 <= s -> 0 <= n ->
  (in_rect (conv (mk_rect (- w) e (- s) n) r) x y = true <->
   grown w e s n (fun a b => in_rect r a b = true) x y).
Proof.
  intros [S1 S2] Hw He Hs Hn. unfold grown, in_rect, conv. cbn [xl xh yl yh]. split.
  - intros H. exists (Z.max (xl r) (Z.min (xh r - 1) x)), (Z.max (yl r) (Z.min (yh r - 1) y)). lia.
  - intros [a [b H]]. lia.
Qed.
Lemma grown_ext w e s n (P Q : Z -> Z -> Prop) x y : (forall a b, P a b -> Q a b) -> grown w e s n P x y -> grown w e s n Q x y.
Proof. intros H [a [b [H1 H2]]]. exists a, b. split; [apply H; exact H1|exact H2]. Qed.
Lemma conv_cover w e s n (P : Z -> Z -> Prop) l x y : 0 <= w -> 0 <= e -> 0 <= s -> 0 <= n -> tiles l P ->
  (0 < cover_count (map (conv (mk_rect (- w) e (- s) n)) l) x y <-> grown w e s n P x y).
Proof.
  intros Hw He Hs Hn [S [_ C]]. rewrite cover_count_pos. rewrite Forall_forall in S. split.
  - intros [q [Hq E]]. apply in_map_iff in Hq. destruct Hq as [r [<- Hr]].
    apply conv_cell in E; try assumption; [|apply S; exact Hr].
    eapply grown_ext; [|exact E]. intros a b H. apply C. exists r. split; assumption.
  - intros [a [b [H1 H2]]]. apply C in H1. destruct H1 as [r [Hr E]].
    exists (conv (mk_rect (- w) e (- s) n) r). split; [apply in_map; exact Hr|].
    apply conv_cell; try assumption; [apply S; exact Hr|]. exists a, b. split; assumption.
Qed.
Lemma conv_solid w e s n r : 0 <= w -> 0 <= e -> 0 <= s -> 0 <= n -> solid r -> solid (conv (mk_rect (- w) e (- s) n) r).
Proof. unfold solid, conv. cbn [xl xh yl yh]. lia. Qed.
(* a convolved rectangle that leaves the range of int has a cell that does *)
Lemma solid_out r : solid r -> ~ rect_int r -> exists x y, in_rect r x y = true /\ ~ (is_int x /\ is_int (x + 1) /\ is_int y /\ is_int (y + 1)).
Proof.
  unfold solid, rect_int. intros [S1 S2] H.
  assert (D : ~ (is_int (xl r) /\ is_int (yl r)) \/ ~ (is_int (xh r) /\ is_int (yh r))) by (unfold is_int in *; lia).
  destruct D as [D|D].
  - exists (xl r), (yl r). split; [unfold in_rect; lia|unfold is_int in *; lia].
  - exists (xh r - 1), (yh r - 1). split; [unfold in_rect; lia|unfold is_int in *; lia].
Qed.
Lemma cells_int r : solid r -> (forall x y, in_rect r x y = true -> INT_MIN <= x < INT_MAX /\ INT_MIN <= y < INT_MAX) -> rect_int r.
Proof.
  intros [S1 S2] H.
  assert (C1 := H (xl r) (yl r)). assert (C2 := H (xh r - 1) (yh r - 1)).
  unfold in_rect in C1, C2. unfold rect_int, is_int. lia.
Qed.

Definition cell_int (x y : Z) : Prop := is_int x /\ is_int (x + 1) /\ is_int y /\ is_int (y + 1).

Lemma bloat2_spec w e s n t : 0 <= w -> 0 <= e -> 0 <= s -> 0 <= n -> ps_ok t ->
  match ps_bloat2 w e s n t with
  | Ok t' => ps_ok t' /\ ps_orient t' = ps_orient t /\ (forall x y, 0 <= ps_count t' x y) /\
      forall x y, ps_covers t' x y <-> grown w e s n (ps_covers t) x y
  | Overflow => exists x y, grown w e s n (ps_covers t) x y /\ ~ cell_int x y
  | Undefined => False
  end.
Proof.
  intros Hw He Hs Hn O. unfold ps_bloat2.
  destruct (clean_is_clean_data t O) as [t1 [E1 [O1 [Eo1 [_ C1]]]]]. rewrite E1. cbn [lift obind].
  destruct (get_rectangles_spec t1 O1) as [rs [t2 [E2 [O2 [Eo2 [C2 D]]]]]]. rewrite E2. cbn [lift obind].
  set (c := mk_rect (- w) e (- s) n).
  destruct D as [T _]. pose proof T as [S _]. rewrite Forall_forall in S.
  assert (G : forall x y, 0 < cover_count (map (conv c) rs) x y <-> grown w e s n (ps_covers t) x y).
  { intros x y. unfold c. rewrite (conv_cover w e s n (ps_covers t1) rs x y Hw He Hs Hn T).
    split; apply grown_ext; intros a b; apply C1. }
  pose proof (map_convolve_cases c rs) as M. destruct (map_rects (fun r => rect_convolve r c) rs) as [l| |]; cbn [obind].
  - destruct M as [-> M]. rewrite Forall_forall in M.
    destruct (insert_rects_spec (map (conv c) rs) (ps_clear t2) (ps_clear_ok _)) as [O3 [Eo3 C3]].
    { intros r Hr. specialize (M r Hr). apply in_map_iff in Hr. destruct Hr as [q [<- Hq]].
      pose proof (conv_solid w e s n q Hw He Hs Hn (S q Hq)) as Sq. fold c in Sq. unfold solid in Sq.
      unfold rect_int in M. unfold rect_ok. split; [lia|exact M]. }
    unfold insert_rects in O3, Eo3, C3. split; [exact O3|]. split; [rewrite Eo3; cbn [ps_clear ps_orient]; congruence|].
    assert (Z0 : forall x y, ps_count (ps_clear t2) x y = 0).
    { intros x y. unfold ps_count. cbn [ps_clear ps_orient ps_data]. rewrite wind_nil. reflexivity. }
    split; [intros x y; rewrite C3, Z0; pose proof (cover_count_nonneg (map (conv c) rs) x y); lia|].
    intros x y. rewrite <- G. unfold ps_covers. rewrite C3, Z0, Z.add_0_l. reflexivity.
  - destruct M as [r [Hr M]].
    pose proof (conv_solid w e s n r Hw He Hs Hn (S r Hr)) as Sr. fold c in Sr.
    destruct (solid_out _ Sr M) as [x [y [H1 H2]]]. exists x, y. split; [|exact H2].
    apply G. apply cover_count_pos. exists (conv c r). split; [apply in_map; exact Hr|exact H1].
  - exact M.
Qed.

(* ---------- form_rectangles ignores the signs of the counts ---------- *)
Definition vneg (v : vertex) : vertex := (vx v, (vy v, - vc v)).
Lemma form_loop_step st p v w V : form_loop st p (v :: w :: V) =
  (do st2 <- processEdge (vy v) (vy w) (if vx v =? p then st else nextMajorCoordinate (vx v) st);
   if Z.abs (vc w) >? 1 then form_loop st2 (vx v) (w :: V) else form_loop st2 (vx v) V).
Proof. reflexivity. Qed.
Lemma form_loop_neg k : forall V st p, (length V <= k)%nat -> form_loop st p (map vneg V) = form_loop st p V.
Proof.
  induction k as [|k IH]; intros V st p H.
  - destruct V as [|v V]; [reflexivity|]. cbn [length] in H. lia.
  - destruct V as [|v [|w V]]; try reflexivity. cbn [length] in H.
    cbn [map]. rewrite !form_loop_step. change (vneg w :: map vneg V) with (map vneg (w :: V)).
    replace (vx (vneg v)) with (vx v) by reflexivity. replace (vy (vneg v)) with (vy v) by reflexivity.
    replace (vy (vneg w)) with (vy w) by reflexivity. replace (vc (vneg w)) with (- vc w) by reflexivity.
    rewrite Z.abs_opp.
    destruct (processEdge (vy v) (vy w) (if vx v =? p then st else nextMajorCoordinate (vx v) st)) as [st2|]; cbn [bind]; [|reflexivity].
    destruct (Z.abs (vc w) >? 1); apply IH; cbn [length]; lia.
Qed.
Lemma form_rectangles_neg o V : form_rectangles o (map vneg V) = form_rectangles o V.
Proof. unfold form_rectangles. rewrite (form_loop_neg (length V)) by lia. reflexivity. Qed.
Lemma cnt_neg V x y : cnt (map vneg V) x y = - cnt V x y.
Proof.
  induction V as [|v V IH]; [reflexivity|]. cbn [map cnt]. rewrite IH. unfold vneg, vx, vy, vc. cbn [fst snd].
  destruct (_ && _); lia.
Qed.
Lemma wind_neg o V x y : wind o (map vneg V) x y = - wind o V x y.
Proof. destruct o; cbn [wind]; apply cnt_neg. Qed.
Lemma closed_neg V : closed V -> closed (map vneg V).
Proof. apply (closed_of_cnt (map vneg V) V Z.opp eq_refl). intros x y. apply cnt_neg. Qed.
Lemma clean_ok_neg V : clean_ok V -> clean_ok (map vneg V).
Proof.
  apply clean_ok_map; intros v; [right; reflexivity| |]; intros w; unfold vneg, vx, vy, vc; cbn [fst snd]; [tauto|congruence].
Qed.
Lemma sorted_neg V : StronglySorted pos_le V -> StronglySorted pos_le (map vneg V).
Proof. apply sorted_map. intros v w. unfold pos_le, vneg, vx, vy, vc. cbn [fst snd]. tauto. Qed.

(* a vertex of clean data touches a covered cell *)
Lemma vertex_near V v : clean_ok V -> indicator01 V -> In v V ->
  exists a b, 0 < cnt V a b /\ vx v - 1 <= a <= vx v /\ vy v - 1 <= b <= vy v.
Proof.
  intros C I Hv. pose proof (clean_ptotal_nonzero V v C Hv) as N. rewrite ptotal_cnt in N.
  pose proof (I (vx v) (vy v)). pose proof (I (vx v - 1) (vy v)). pose proof (I (vx v) (vy v - 1)). pose proof (I (vx v - 1) (vy v - 1)).
  destruct (Z.eq_dec (cnt V (vx v) (vy v)) 1) as [E|N1]; [exists (vx v), (vy v); lia|].
  destruct (Z.eq_dec (cnt V (vx v - 1) (vy v)) 1) as [E|N2]; [exists (vx v - 1), (vy v); lia|].
  destruct (Z.eq_dec (cnt V (vx v) (vy v - 1)) 1) as [E|N3]; [exists (vx v), (vy v - 1); lia|].
  exists (vx v - 1), (vy v - 1). lia.
Qed.
Lemma rect_vertices_pos o hole r v : In v (rect_vertices o hole r) ->
  match o with
  | Vertical => (vx v = xl r \/ vx v = xh r) /\ (vy v = yl r \/ vy v = yh r)
  | Horizontal => (vx v = yl r \/ vx v = yh r) /\ (vy v = xl r \/ vy v = xh r)
  end.
Proof.
  destruct o; cbn [rect_vertices In]; intros [<-|[<-|[<-|[<-|[]]]]]; unfold vx, vy; cbn [fst snd]; tauto.
Qed.
Lemma rect_vertices_clean o hole r : solid r -> clean_ok (rect_vertices o hole r).
Proof.
  intros [S1 S2]. split.
  - destruct o, hole; repeat constructor; unfold unit_count, vc; cbn [fst snd]; lia.
  - intros v w Hv Hw. destruct o; cbn [rect_vertices In] in *;
    destruct Hv as [<-|[<-|[<-|[<-|[]]]]], Hw as [<-|[<-|[<-|[<-|[]]]]]; unfold vx, vy, vc; cbn [fst snd]; lia.
Qed.
Lemma clean_ok_app V W : clean_ok V -> clean_ok W ->
  (forall v w, In v V -> In w W -> ~ (vx v = vx w /\ vy v = vy w)) -> clean_ok (V ++ W).
Proof.
  intros [A1 A2] [B1 B2] D. split; [apply Forall_app; split; assumption|].
  intros v w Hv Hw E1 E2. apply in_app_or in Hv. apply in_app_or in Hw. destruct Hv as [Hv|Hv], Hw as [Hw|Hw].
  - apply A2; assumption.
  - exfalso. apply (D v w Hv Hw). split; assumption.
  - exfalso. apply (D w v Hw Hv). split; congruence.
  - apply B2; assumption.
Qed.

(* the box and the complement of the set in it *)
Lemma shrink_complement t box0 box : ps_ok t -> ps_dirty t = false -> canonical (ps_data t) ->
  bounding_box (ps_covers t) box0 -> solid box0 ->
  xl box < xl box0 -> xh box0 < xh box -> yl box < yl box0 -> yh box0 < yh box ->
  exists rs, form_rectangles (ps_orient t) (ps_data (ps_sort (ps_insert_rect t box true))) = Some rs /\
    tiles rs (fun x y => in_rect box x y = true /\ ~ ps_covers t x y).
Proof.
  intros O Dt Can [B0 _] [S1 S2] Bx1 Bx2 By1 By2.
  set (H4 := rect_vertices (ps_orient t) true box).
  assert (Sb : solid box) by (split; lia).
  assert (Eins : ps_insert_rect t box true = mk_ps (ps_orient t) (ps_data t ++ H4) true true).
  { unfold ps_insert_rect, ps_insert_range. fold H4. rewrite orient_eqb_refl.
    destruct H4 as [|v0 l0] eqn:E4; [|reflexivity]. exfalso. unfold H4 in E4. destruct (ps_orient t); discriminate E4. }
  rewrite Eins. cbn [ps_sort ps_unsorted ps_data ps_orient].
  set (W := vsort (ps_data t ++ H4)).
  pose proof (vsort_perm (ps_data t ++ H4)) as P. fold W in P.
  destruct (ok_clean _ O Dt) as [Cl I].
  destruct (rect_vertices_spec (ps_orient t) true box) as [Hc Hw]; [unfold rect_ok, solid in *; lia|]. fold H4 in Hc, Hw.
  assert (Cw : clean_ok W).
  { eapply clean_ok_perm; [apply Permutation_sym; exact P|]. apply clean_ok_app; [exact Cl|apply rect_vertices_clean; exact Sb|].
    intros v u Hv Hu. apply rect_vertices_pos in Hu. destruct (vertex_near _ v Cl I Hv) as [a [b [Hab [Ha Hb]]]].
    unfold ps_covers, ps_count in B0. destruct (ps_orient t); cbn [wind] in B0.
    - specialize (B0 b a Hab). unfold in_rect in B0. lia.
    - specialize (B0 a b Hab). unfold in_rect in B0. lia. }
  assert (Ww : forall x y, wind (ps_orient t) (map vneg W) x y = b2z (in_rect box x y) - ps_count t x y).
  { intros x y. rewrite wind_neg.
    rewrite (wind_cnt (ps_orient t) W (ps_data t ++ H4)) by (intros a b; apply cnt_perm; exact P).
    rewrite wind_app, Hw. unfold ps_count. destruct (in_rect box x y); cbn [b2z]; lia. }
  assert (I' : forall x y, ps_count t x y = 0 \/ ps_count t x y = 1).
  { intros x y. unfold ps_count. destruct (ps_orient t); cbn [wind]; apply I. }
  assert (Sub : forall x y, ps_count t x y = 1 -> in_rect box x y = true).
  { intros x y Hxy. assert (Q : in_rect box0 x y = true) by (apply B0; unfold ps_covers; lia). unfold in_rect in *. lia. }
  assert (CD : clean_data (map vneg W)).
  { constructor.
    - apply sorted_clean_canonical; [apply sorted_neg, vsort_sorted|apply clean_ok_neg; exact Cw].
    - apply closed_neg. eapply closed_perm; [apply Permutation_sym; exact P|]. apply closed_app; [apply (ok_closed _ O)|exact Hc].
    - assert (R : forall x y, wind (ps_orient t) (map vneg W) x y = 0 \/ wind (ps_orient t) (map vneg W) x y = 1).
      { intros x y. rewrite Ww. destruct (I' x y) as [E|E]; [|rewrite (Sub x y E)]; rewrite E; [destruct (in_rect box x y)|]; cbn [b2z]; lia. }
      intros x y. destruct (ps_orient t); cbn [wind] in R; apply R. }
  destruct (form_rectangles_spec (ps_orient t) _ CD) as [rs [E D]]. rewrite form_rectangles_neg in E.
  exists rs. split; [exact E|]. destruct D as [[T1 [T2 T3]] _]. split; [exact T1|]. split; [exact T2|].
  intros x y. rewrite <- T3, Ww. unfold ps_covers. destruct (I' x y) as [Q|Q]; [|pose proof (Sub x y Q)]; rewrite Q; destruct (in_rect box x y); cbn [b2z]; lia.
Qed.

Lemma insert_holes_spec rs : forall s, ps_ok s ->
  (forall r, In r rs -> rect_ok r /\ rect_int r) ->
  let s' := fold_left (fun s r => ps_insert_rect s r true) rs s in
  ps_ok s' /\ ps_orient s' = ps_orient s /\
  forall x y, ps_count s' x y = ps_count s x y - cover_count rs x y.
Proof.
  induction rs as [|r rs IH]; intros s O H; cbn [fold_left cover_count].
  - split; [exact O|]. split; [reflexivity|]. intros; lia.
  - destruct (H r (or_introl eq_refl)) as [H0 [H1 [H2 [H3 H4]]]].
    destruct (ps_insert_rect_spec s r true O H0 H1 H2 H3 H4) as [O1 [E1 C1]].
    destruct (IH (ps_insert_rect s r true) O1) as [O2 [E2 C2]]; [intros q Hq; apply H; right; exact Hq|].
    split; [exact O2|]. split; [congruence|]. intros x y. rewrite C2. unfold ps_count. rewrite E1, C1.
    destruct (in_rect r x y); cbn [b2z]; lia.
Qed.

(* the region argument *)
Lemma shrunk_complement w e s n (P : Z -> Z -> Prop) box0 box x y :
  0 <= w -> 0 <= e -> 0 <= s -> 0 <= n -> (forall x y, P x y \/ ~ P x y) ->
  (forall x y, P x y -> in_rect box0 x y = true) -> solid box0 ->
  xl box < xl box0 -> xh box0 < xh box -> yl box < yl box0 -> yh box0 < yh box ->
  (shrunk w e s n P x y <->
   in_rect (conv (mk_rect (- e) w (- n) s) box) x y = true /\
   ~ grown e w n s (fun a b => in_rect box a b = true /\ ~ P a b) x y).
Proof.
  intros Hw He Hs Hn Dec Sub [S1 S2] Bx1 Bx2 By1 By2. split.
  - intros H. split.
    + assert (Q : in_rect box0 x y = true) by (apply Sub, H; lia). unfold in_rect, conv in *. cbn [xl xh yl yh]. lia.
    + intros [a [b [[_ H1] [H2 H3]]]]. apply H1, H; lia.
  - intros [H1 H2] a b Ha Hb. destruct (Dec a b) as [Q|Q]; [exact Q|]. exfalso. apply H2.
    unfold in_rect, conv in H1. cbn [xl xh yl yh] in H1.
    set (a' := Z.max (xl box) (Z.min (xh box - 1) a)). set (b' := Z.max (yl box) (Z.min (yh box - 1) b)).
    exists a', b'. split; [split|].
    + unfold in_rect, a', b'. lia.
    + intros Pc. destruct (in_rect box a b) eqn:Eb.
      * unfold in_rect in Eb. assert (a' = a) by (unfold a'; lia). assert (b' = b) by (unfold b'; lia). congruence.
      * apply Sub in Pc. unfold in_rect, a', b' in *. lia.
    + unfold a', b'. lia.
Qed.

Definition margin_ok (w e s n x y : Z) : Prop :=
  INT_MIN <= x - 10 - e /\ x + 1 + 10 + w <= INT_MAX /\ INT_MIN <= y - 10 - n /\ y + 1 + 10 + s <= INT_MAX.

Lemma shrink2_spec w e s n t : 0 <= w -> 0 <= e -> 0 <= s -> 0 <= n -> ps_ok t ->
  match ps_shrink2 w e s n t with
  | Ok t' => ps_ok t' /\ ps_orient t' = ps_orient t /\ (forall x y, 0 <= ps_count t' x y) /\
      forall x y, ps_covers t' x y <-> shrunk w e s n (ps_covers t) x y
  | Overflow => exists x y, ps_covers t x y /\ ~ margin_ok w e s n x y
  | Undefined => False
  end.
Proof.
  intros Hw He Hs Hn O. unfold ps_shrink2.
  destruct (ps_extents_spec t O) as [ext [t1 [E1 [Ec B]]]]. rewrite E1. cbn [lift obind].
  destruct (ps_clean_spec t O) as [t1' [Ec' [O1 [Eo1 [D1 [U1 [Can K]]]]]]].
  assert (t1' = t1) by congruence. subst t1'. clear Ec'.
  assert (C1 : forall x y, ps_covers t1 x y <-> ps_covers t x y).
  { intros x y. unfold ps_covers, ps_count. rewrite Eo1.
    rewrite (wind_map (ps_orient t) (ps_data t1) (ps_data t) (fun c => b2z (c >? 0)) x y K).
    destruct (wind (ps_orient t) (ps_data t) x y >? 0) eqn:Q; cbn [b2z]; lia. }
  assert (N1 : forall x y, 0 <= ps_count t1 x y).
  { intros x y. unfold ps_count. rewrite Eo1.
    rewrite (wind_map (ps_orient t) (ps_data t1) (ps_data t) (fun c => b2z (c >? 0)) x y K).
    destruct (wind (ps_orient t) (ps_data t) x y >? 0) eqn:Q; cbn [b2z]; lia. }
  destruct ext as [box0|].
  2: { split; [exact O1|]. split; [exact Eo1|]. split; [exact N1|]. intros x y. rewrite C1. split.
       - intros H. exfalso. exact (B x y H).
       - intros H. apply H; lia. }
  fold (ps_count t) in B. change (fun x y => 0 < wind (ps_orient t) (ps_data t) x y) with (ps_covers t) in B.
  assert (Sb0 : solid box0).
  { destruct B as [B0 [[y1 B1] [_ [[x1 B2] _]]]]. apply B0 in B1. apply B0 in B2. unfold in_rect, solid in *. lia. }
  assert (Bad : forall v, ~ rect_int (mk_rect (xl box0 - 10 - e) (xh box0 + 10 + w) (yl box0 - 10 - n) (yh box0 + 10 + s)) ->
                v = tt -> exists x y, ps_covers t x y /\ ~ margin_ok w e s n x y).
  { intros v N _. destruct B as [B0 [[y1 B1] [[y2 B2] [[x1 B3] [x2 B4]]]]]. unfold rect_int, is_int in N. cbn [xl xh yl yh] in N.
    unfold margin_ok.
    pose proof (covers_int t _ _ O B1). pose proof (covers_int t _ _ O B2). pose proof (covers_int t _ _ O B3). pose proof (covers_int t _ _ O B4).
    destruct (Z.lt_ge_cases (xl box0 - 10 - e) INT_MIN) as [L1|L1]; [exists (xl box0), y1; split; [exact B1|lia]|].
    destruct (Z.lt_ge_cases INT_MAX (xh box0 + 10 + w)) as [L2|L2]; [exists (xh box0 - 1), y2; split; [exact B2|lia]|].
    destruct (Z.lt_ge_cases (yl box0 - 10 - n) INT_MIN) as [L3|L3]; [exists x1, (yl box0); split; [exact B3|lia]|].
    destruct (Z.lt_ge_cases INT_MAX (yh box0 + 10 + s)) as [L4|L4]; [exists x2, (yh box0 - 1); split; [exact B4|lia]|].
    exfalso. apply N. unfold solid in Sb0. lia. }
  specialize (fun N => Bad tt N eq_refl).
  pose proof (rect_bloat_cases box0 10) as Rb. destruct (rect_bloat box0 10) as [box| |]; cbn [obind].
  2: { apply Bad. intros Q. apply Rb. clear -Q Sb0 Hw He Hs Hn. unfold rect_int, is_int, solid in *. cbn [xl xh yl yh] in *. lia. }
  2: exact Rb.
  destruct Rb as [Eb Ib].
  assert (Bx : xl box < xl box0 /\ xh box0 < xh box /\ yl box < yl box0 /\ yh box0 < yh box) by (rewrite Eb; cbn [xl xh yl yh]; lia).
  destruct Bx as [Bx1 [Bx2 [Bx3 Bx4]]].
  assert (B1 : bounding_box (ps_covers t1) box0).
  { destruct B as [B0 [[y1 B1] [[y2 B2] [[x1 B3] [x2 B4]]]]].
    split; [intros x y H; apply B0, C1, H|]. split; [exists y1; apply C1, B1|]. split; [exists y2; apply C1, B2|].
    split; [exists x1; apply C1, B3|exists x2; apply C1, B4]. }
  destruct (shrink_complement t1 box0 box O1 D1 Can B1 Sb0 Bx1 Bx2 Bx3 Bx4) as [rs [Ef T]].
  assert (Sb : solid box) by (unfold solid in *; lia).
  destruct Ib as [Ib1 [Ib2 [Ib3 Ib4]]].
  destruct (ps_insert_rect_spec t1 box true O1) as [Oi [Eoi _]]; try assumption; [unfold rect_ok, solid in *; lia|].
  destruct (ps_sort_spec _ Oi) as [_ [Eos _]].
  assert (Eo2 : ps_orient (ps_sort (ps_insert_rect t1 box true)) = ps_orient t1) by congruence.
  cbv zeta. rewrite Eo2. rewrite Ef. cbn [lift obind].
  set (c := mk_rect (- e) w (- n) s).
  set (t2 := ps_sort (ps_insert_rect t1 box true)) in *.
  pose proof T as [S [_ Tc]]. rewrite Forall_forall in S.
  pose proof (map_convolve_cases c rs) as M. destruct (map_rects (fun r => rect_convolve r c) rs) as [l| |]; cbn [obind].
  2: { apply Bad. intros Q. destruct M as [r [Hr M]]. apply M. specialize (S r Hr).
       assert (Cr : forall x y, in_rect r x y = true -> in_rect box x y = true).
       { intros x y H. assert (Hx : exists r0, In r0 rs /\ in_rect r0 x y = true) by (exists r; tauto). apply Tc in Hx. tauto. }
       assert (R1 := Cr (xl r) (yl r)). assert (R2 := Cr (xh r - 1) (yh r - 1)).
       clear -Q S R1 R2 Eb Hw He Hs Hn. unfold in_rect, solid in *. subst box. unfold rect_int, is_int, conv, c in *. cbn [xl xh yl yh] in *. lia. }
  2: exact M.
  destruct M as [-> M]. rewrite Forall_forall in M.
  assert (Hs4 : forall r, solid r -> solid (conv c r)) by (intros r; apply conv_solid; assumption).
  destruct (insert_holes_spec (map (conv c) rs) (ps_clear t2) (ps_clear_ok _)) as [O3 [Eo3 C3]].
  { intros r Hr. split; [|apply M; exact Hr]. apply in_map_iff in Hr. destruct Hr as [q [<- Hq]].
    specialize (Hs4 q (S q Hq)). unfold solid, rect_ok in *. lia. }
  set (t3 := fold_left (fun acc r => ps_insert_rect acc r true) (map (conv c) rs) (ps_clear t2)) in *.
  pose proof (rect_convolve_cases box c) as Rc. destruct (rect_convolve box c) as [box2| |]; cbn [obind].
  2: { apply Bad. intros Q. apply Rc. clear -Q Eb. subst box. unfold rect_int, is_int, conv, c in *. cbn [xl xh yl yh] in *. lia. }
  2: exact Rc.
  destruct Rc as [-> [Ic1 [Ic2 [Ic3 Ic4]]]].
  destruct (ps_insert_rect_spec t3 (conv c box) false O3) as [O4 [Eo4 C4]]; try assumption.
  { specialize (Hs4 box Sb). unfold solid, rect_ok in *. lia. }
  destruct (ps_clean_spec _ O4) as [t5 [E5 [O5 [Eo5 [_ [_ [_ C5]]]]]]]. rewrite E5. cbn [lift].
  assert (Eo3' : ps_orient t3 = ps_orient t) by (rewrite Eo3; cbn [ps_clear ps_orient]; congruence).
  split; [exact O5|]. split; [congruence|]. split.
  { intros x y. unfold ps_count. rewrite Eo5, Eo4.
    rewrite (wind_map (ps_orient t3) (ps_data t5) _ (fun c => b2z (c >? 0)) x y C5).
    match goal with |- context [?z >? 0] => destruct (z >? 0) end; cbn [b2z]; lia. }
  intros x y.
  assert (Q5 : ps_covers t5 x y <-> 0 < b2z (in_rect (conv c box) x y) - cover_count (map (conv c) rs) x y).
  { unfold ps_covers, ps_count. rewrite Eo5, Eo4.
    rewrite (wind_map (ps_orient t3) (ps_data t5) _ (fun c => b2z (c >? 0)) x y C5).
    rewrite C4. assert (Z0 : wind (ps_orient t3) (ps_data t3) x y = - cover_count (map (conv c) rs) x y).
    { specialize (C3 x y). unfold ps_count in C3. cbn [ps_clear ps_orient ps_data] in C3. rewrite wind_nil in C3. rewrite C3. lia. }
    rewrite Z0. destruct (in_rect (conv c box) x y); cbn [b2z];
    match goal with |- context [?z >? 0] => destruct (z >? 0) eqn:Qz end; cbn [b2z]; lia. }
  rewrite Q5.
  assert (Ext : shrunk w e s n (ps_covers t) x y <-> shrunk w e s n (ps_covers t1) x y).
  { split; intros H a b Ha Hb; apply C1, H; assumption. }
  rewrite Ext. destruct B1 as [Sub _].
  rewrite (shrunk_complement w e s n (ps_covers t1) box0 box x y Hw He Hs Hn); try assumption.
  2: { intros a b. unfold ps_covers. lia. }
  rewrite <- (conv_cover e w n s _ rs x y He Hw Hn Hs T). fold c.
  pose proof (cover_count_nonneg (map (conv c) rs) x y).
  destruct (in_rect (conv c box) x y); cbn [b2z]; split; intros Q; try lia.

Qed.
