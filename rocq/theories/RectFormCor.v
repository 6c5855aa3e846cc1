(* get_rectangles of polygon sets. *)
From Verif Require Import Base Scan90Spec BoolOpModel VertexLemmas BoolOpProofs IsoSpec IsoModel IsoProofs
  Set90Spec Set90Model Set90Lemmas Set90Proofs Set90History Set90Cor
  RectFormSpec RectFormModel RectFormLemmas RectFormEdge RectFormProofs.

(* ---------- consequences of the counts ---------- *)
Lemma cover_count_nonneg l x y : 0 <= cover_count l x y.
Proof. induction l as [|r l IH]; cbn [cover_count]; [lia|]. destruct (in_rect r x y); cbn [b2z]; lia. Qed.
Lemma cover_count_pos l x y : 0 < cover_count l x y <-> exists r, In r l /\ in_rect r x y = true.
Proof.
  induction l as [|r l IH]; cbn [cover_count].
  - split; [lia|]. intros [r [[] _]].
  - pose proof (cover_count_nonneg l x y). destruct (in_rect r x y) eqn:E; cbn [b2z].
    + split; [intros _; exists r; split; [left; reflexivity|exact E]|lia].
    + rewrite Z.add_0_l, IH. split.
      * intros [q [Hq Eq]]. exists q. split; [right; exact Hq|exact Eq].
      * intros [q [[<-|Hq] Eq]]; [congruence|]. exists q. split; assumption.
Qed.
Lemma cover_count_tiles l P : Forall solid l -> (forall x y, cover_count l x y <= 1) ->
  (forall x y, P x y <-> 0 < cover_count l x y) -> tiles l P.
Proof.
  intros S C HP. split; [exact S|]. split.
  - clear HP S. induction l as [|r l IH]; constructor.
    + apply Forall_forall. intros q Hq x y [E1 E2]. specialize (C x y). cbn [cover_count] in C. rewrite E1 in C.
      cbn [b2z] in C. assert (Q : 0 < cover_count l x y) by (apply cover_count_pos; exists q; tauto). lia.
    + apply IH. intros x y. specialize (C x y). cbn [cover_count] in C. destruct (in_rect r x y); cbn [b2z] in C; lia.
  - intros x y. rewrite HP. apply cover_count_pos.
Qed.
Lemma solid_cell r : solid r -> in_rect r (xl r) (yl r) = true.
Proof. intros [H1 H2]. unfold in_rect. lia. Qed.
Lemma tiles_nodup l P : tiles l P -> NoDup l.
Proof.
  intros [S [D _]]. induction l as [|r l IH]; constructor.
  - intros Hin. inversion D as [|? ? D1 _]; subst. inversion S as [|? ? S1 _]; subst.
    rewrite Forall_forall in D1. apply (D1 r Hin (xl r) (yl r)). split; apply solid_cell, S1.
  - apply IH; [inversion S; assumption|inversion D; assumption].
Qed.

(* two slabs that share a cell are equal *)
Lemma vrun_unique P x l h l' h' y : vrun P x l h -> vrun P x l' h' -> l <= y < h -> l' <= y < h' -> l = l' /\ h = h'.
Proof.
  intros [A1 [A2 [A3 A4]]] [B1 [B2 [B3 B4]]] H H'. split.
  - destruct (Z.lt_trichotomy l l') as [Q|[Q|Q]]; [|exact Q|].
    + exfalso. apply B3. apply A2. lia.
    + exfalso. apply A3. apply B2. lia.
  - destruct (Z.lt_trichotomy h h') as [Q|[Q|Q]]; [|exact Q|].
    + exfalso. apply A4. apply B2. lia.
    + exfalso. apply B4. apply A2. lia.
Qed.
Lemma vslab_unique P r q x y : vslab P r -> vslab P q -> in_rect r x y = true -> in_rect q x y = true -> r = q.
Proof.
  intros [A1 [A2 [A3 A4]]] [B1 [B2 [B3 B4]]] Hr Hq. unfold in_rect in *.
  destruct (vrun_unique P x (yl r) (yh r) (yl q) (yh q) y) as [E1 E2]; try lia.
  { apply A2. lia. } { apply B2. lia. }
  destruct r as [a b c d], q as [a' b' c' d']. cbn [xl xh yl yh] in *. subst c' d'.
  assert (a = a').
  { destruct (Z.lt_trichotomy a a') as [Q|[Q|Q]]; [|exact Q|].
    - exfalso. apply B3. apply A2. lia.
    - exfalso. apply A3. apply B2. lia. }
  assert (b = b').
  { destruct (Z.lt_trichotomy b b') as [Q|[Q|Q]]; [|exact Q|].
    - exfalso. apply A4. apply B2. lia.
    - exfalso. apply B4. apply A2. lia. }
  congruence.
Qed.
Lemma in_rect_swap r x y : in_rect (rect_swap r) x y = in_rect r y x.
Proof. unfold in_rect, rect_swap. cbn [xl xh yl yh]. lia. Qed.
Lemma rect_swap_inv r : rect_swap (rect_swap r) = r.
Proof. destruct r; reflexivity. Qed.
Lemma slab_unique o P r q x y : slab o P r -> slab o P q -> in_rect r x y = true -> in_rect q x y = true -> r = q.
Proof.
  destruct o; cbn [slab].
  - intros H1 H2 E1 E2. rewrite <- (rect_swap_inv r), <- (rect_swap_inv q). f_equal.
    apply (vslab_unique _ _ _ y x H1 H2); rewrite in_rect_swap; assumption.
  - intros H1 H2 E1 E2. exact (vslab_unique _ _ _ x y H1 H2 E1 E2).
Qed.
Lemma slab_solid o P r : slab o P r -> solid r.
Proof.
  destruct o; cbn [slab]; intros [H1 [H2 _]]; unfold solid, rect_swap in *; cbn [xl xh yl yh] in *.
  - destruct (H2 (yl r)) as [H3 _]; lia.
  - destruct (H2 (xl r)) as [H3 _]; lia.
Qed.
Lemma slab_inside o P r : slab o P r -> forall x y, in_rect r x y = true -> P x y.
Proof.
  destruct o; cbn [slab]; intros [H1 [H2 _]] x y E; unfold in_rect, rect_swap in *; cbn [xl xh yl yh] in *.
  - destruct (H2 y) as [_ [H3 _]]; [lia|]. apply H3. lia.
  - destruct (H2 x) as [_ [H3 _]]; [lia|]. apply H3. lia.
Qed.
Lemma decomposes_intro o P l : tiles l P -> (forall r, In r l -> slab o P r) -> decomposes o P l.
Proof.
  intros T S. split; [exact T|]. split; [exact (tiles_nodup l P T)|]. intros r. split; [apply S|].
  intros Hr. pose proof (slab_solid o P r Hr) as So. pose proof (solid_cell r So) as C.
  pose proof (slab_inside o P r Hr _ _ C) as Pc. destruct T as [_ [_ T]]. apply T in Pc.
  destruct Pc as [q [Hq Cq]]. rewrite (slab_unique o P r q _ _ Hr (S q Hq) C Cq). exact Hq.
Qed.
Lemma vslab_ext P Q r : (forall x y, P x y <-> Q x y) -> vslab P r -> vslab Q r.
Proof.
  intros H. assert (R : forall x l h, vrun P x l h <-> vrun Q x l h).
  { intros x l h. unfold vrun. rewrite !H. split; intros [A [B C]]; (split; [exact A|split; [|exact C]]);
      intros y Hy; apply H, B, Hy. }
  intros [A [B [C D]]]. split; [exact A|]. split; [intros x Hx; apply R, B, Hx|].
  split; intros K; apply R in K; auto.
Qed.
Lemma slab_ext o P Q r : (forall x y, P x y <-> Q x y) -> slab o P r -> slab o Q r.
Proof. intros H. destruct o; cbn [slab]; apply vslab_ext; intros x y; apply H. Qed.
Lemma decomposes_ext o P Q l : (forall x y, P x y <-> Q x y) -> decomposes o P l -> decomposes o Q l.
Proof.
  intros H [[T1 [T2 T3]] [N S]]. split; [split; [exact T1|split; [exact T2|]]|split; [exact N|]].
  - intros x y. rewrite <- H. apply T3.
  - intros r. rewrite S. split; apply slab_ext; intros x y; [apply H|symmetry; apply H].
Qed.
Lemma vslab_swap_tiles l P : tiles l P -> tiles (map rect_swap l) (fun x y => P y x).
Proof.
  intros [S [D C]]. split; [|split].
  - apply Forall_map. eapply Forall_impl; [|exact S]. intros r [H1 H2]. unfold solid, rect_swap; cbn [xl xh yl yh]. tauto.
  - clear S C. induction D as [|r l F D IH]; constructor; [|exact IH]. apply Forall_map.
    eapply Forall_impl; [|exact F]. intros q H x y. rewrite !in_rect_swap. apply H.
  - intros x y. rewrite C. split.
    + intros [r [Hr E]]. exists (rect_swap r). split; [apply in_map; exact Hr|]. rewrite in_rect_swap. exact E.
    + intros [r [Hr E]]. apply in_map_iff in Hr. destruct Hr as [q [<- Hq]]. exists q. rewrite in_rect_swap in E. tauto.
Qed.
Definition other (o : orient) : orient := match o with Horizontal => Vertical | Vertical => Horizontal end.
Lemma slab_swap o P r : slab o P r -> slab (other o) (fun x y => P y x) (rect_swap r).
Proof. destruct o; cbn [slab other]; [tauto|]. rewrite rect_swap_inv. tauto. Qed.
Lemma decomposes_swap o P l : decomposes o P l -> decomposes (other o) (fun x y => P y x) (map rect_swap l).
Proof.
  intros [T [_ S]]. apply decomposes_intro; [apply vslab_swap_tiles; exact T|].
  intros r Hr. apply in_map_iff in Hr. destruct Hr as [q [<- Hq]]. apply slab_swap. apply S. exact Hq.
Qed.

(* ---------- form_rectangles ---------- *)
Definition to_rect (o : orient) (r : srect) : rect :=
  match o with
  | Vertical => mk_rect (s_ml r) (s_mh r) (s_lo r) (s_hi r)
  | Horizontal => mk_rect (s_lo r) (s_hi r) (s_ml r) (s_mh r)
  end.
Lemma cover_count_app l l' x y : cover_count (l ++ l') x y = cover_count l x y + cover_count l' x y.
Proof. induction l as [|r l IH]; cbn [app cover_count]; [reflexivity|]. rewrite IH. lia. Qed.
Lemma cover_count_out o l x y :
  cover_count (map (to_rect o) (rev l)) x y = match o with Vertical => out_sum l x y | Horizontal => out_sum l y x end.
Proof.
  induction l as [|r l IH]; [destruct o; reflexivity|]. cbn [rev]. rewrite map_app, cover_count_app, IH.
  cbn [map cover_count]. destruct o; cbn [out_sum to_rect]; unfold in_rect, inb; cbn [xl xh yl yh].
  - replace ((s_lo r <=? x) && (x <? s_hi r) && (s_ml r <=? y) && (y <? s_mh r)) with
      ((s_ml r <=? y) && (y <? s_mh r) && ((s_lo r <=? x) && (x <? s_hi r))) by lia. lia.
  - rewrite <- andb_assoc. lia.
Qed.

Lemma written_slab V cc s : clean_data V -> written V cc s -> vslab (P_of V) (to_rect Vertical s).
Proof.
  intros CD [W1 [W2 [W3 [y [Hy D]]]]]. cbn [to_rect]. unfold vslab. cbn [xl xh yl yh].
  split; [lia|]. split; [exact W2|]. split; [exact W3|]. intros R. apply D.
  assert (Rp : vrun (P_of V) (s_mh s - 1) (s_lo s) (s_hi s)) by (apply W2; lia).
  destruct R as [_ [C1 [C2 C3]]]. destruct Rp as [_ [D1 [D2 D3]]]. unfold P_of in *.
  pose proof (cd_01 V CD (s_mh s) y) as Q1. pose proof (cd_01 V CD (s_mh s - 1) y) as Q2.
  destruct (Z.eq_dec y (s_lo s - 1)) as [->|N1]; [lia|].
  destruct (Z.eq_dec y (s_hi s)) as [->|N2]; [lia|].
  assert (By : s_lo s <= y < s_hi s) by lia. specialize (C1 y By). specialize (D1 y By). lia.
Qed.

Lemma form_rectangles_spec o V : clean_data V -> exists rs, form_rectangles o V = Some rs /\
  decomposes o (fun x y => 0 < wind o V x y) rs.
Proof.
  intros CD. destruct (form_scan_spec V CD) as [st [E [W C]]]. unfold form_rectangles. rewrite E. cbn [bind].
  eexists. split; [reflexivity|]. fold (to_rect o). change (map (fun r => to_rect o r) (rev (sc_out st))) with (map (to_rect o) (rev (sc_out st))).
  assert (Sl : forall r, In r (map (to_rect o) (rev (sc_out st))) -> slab o (fun x y => 0 < wind o V x y) r).
  { intros r Hr. apply in_map_iff in Hr. destruct Hr as [s [<- Hs]]. apply in_rev in Hs.
    destruct (W s Hs) as [cc Ws]. pose proof (written_slab V cc s CD Ws) as Q.
    destruct o; cbn [slab wind]; [|exact Q]. unfold rect_swap. cbn [to_rect xl xh yl yh] in *. exact Q. }
  apply decomposes_intro; [|exact Sl]. apply cover_count_tiles.
  - apply Forall_forall. intros r Hr. apply (slab_solid o _ r (Sl r Hr)).
  - intros x y. rewrite cover_count_out. destruct o; rewrite C; destruct (cd_01 V CD x y), (cd_01 V CD y x); lia.
  - intros x y. rewrite cover_count_out. destruct o; cbn [wind]; rewrite C; reflexivity.
Qed.

(* ---------- polygon sets ---------- *)
Lemma clean_is_clean_data s : ps_ok s -> exists s', ps_clean s = Some s' /\ ps_ok s' /\ ps_orient s' = ps_orient s /\
  clean_data (ps_data s') /\ forall x y, ps_covers s' x y <-> ps_covers s x y.
Proof.
  intros O. destruct (ps_clean_spec s O) as [s' [E [O' [Eo [_ [_ [Can C]]]]]]]. exists s'.
  split; [exact E|]. split; [exact O'|]. split; [exact Eo|]. split.
  - constructor; [exact Can|apply (ok_closed _ O')|]. intros x y. rewrite C. apply b2z_01.
  - intros x y. unfold ps_covers, ps_count. rewrite Eo.
    rewrite (wind_map (ps_orient s) (ps_data s') (ps_data s) (fun c => b2z (c >? 0)) x y C).
    destruct (wind (ps_orient s) (ps_data s) x y >? 0) eqn:Q; cbn [b2z]; lia.
Qed.
Lemma get_rectangles_spec s : ps_ok s -> exists rs s', ps_get_rectangles s = Some (rs, s') /\
  ps_ok s' /\ ps_orient s' = ps_orient s /\ (forall x y, ps_covers s' x y <-> ps_covers s x y) /\
  decomposes (ps_orient s) (ps_covers s) rs.
Proof.
  intros O. destruct (clean_is_clean_data s O) as [s' [E [O' [Eo [CD C]]]]].
  unfold ps_get_rectangles. rewrite E. cbn [bind].
  destruct (form_rectangles_spec (ps_orient s') (ps_data s') CD) as [rs [Er D]]. rewrite Er. cbn [bind].
  exists rs, s'. split; [reflexivity|]. split; [exact O'|]. split; [exact Eo|]. split; [exact C|].
  rewrite Eo in D. eapply decomposes_ext; [|exact D]. intros x y. rewrite <- C. unfold ps_covers, ps_count. rewrite Eo. reflexivity.
Qed.

Lemma swap_int x y : is_int x -> is_int y -> iso_transform (mk_iso SWAP_XY 0 0) x y = Ok (y, x).
Proof.
  intros Hx Hy. unfold iso_transform. cbn [iso_px iso_py iso_atr]. rewrite !Z.sub_0_r, (chk_int y Hy), (chk_int x Hx).
  cbn [obind]. rewrite atr_table by (unfold SWAP_XY; lia). unfold SWAP_XY. rewrite (chk_int y Hy), (chk_int x Hx). reflexivity.
Qed.
Lemma map_vertices_total g l : (forall v, In v l -> exists v', g v = Ok v') -> exists d, map_vertices g l = Ok d.
Proof.
  induction l as [|v l IH]; intros H; [exists []; reflexivity|]. cbn [map_vertices].
  destruct (H v (or_introl eq_refl)) as [v' Ev]. rewrite Ev. cbn [obind]. fold (map_vertices g).
  destruct IH as [d Ed]; [intros w Hw; apply H; right; exact Hw|]. rewrite Ed. exists (v' :: d). reflexivity.
Qed.
Lemma swap_ok s : ps_ok s -> exists s', ps_transform (mk_iso SWAP_XY 0 0) s = Ok s'.
Proof.
  intros O. pose proof (ok_int _ O) as D. unfold dint in D. rewrite Forall_forall in D.
  unfold ps_transform. cbn [iso_atr]. destruct (get_directions SWAP_XY) as [d1 d2].
  match goal with |- context [map_vertices ?g _] => destruct (map_vertices_total g (ps_data s)) as [d Ed] end.
  - intros v Hv. destruct (D v Hv) as [H1 H2].
    destruct (ps_orient s); rewrite swap_int by assumption; cbn [obind]; eexists; reflexivity.
  - rewrite Ed. cbn [obind]. eexists; reflexivity.
Qed.
Lemma swap_covers s s' : ps_ok s -> ps_transform (mk_iso SWAP_XY 0 0) s = Ok s' ->
  ps_ok s' /\ ps_orient s' = ps_orient s /\ forall x y, ps_covers s' x y <-> ps_covers s y x.
Proof.
  intros O E. pose proof (ps_transform_spec (mk_iso SWAP_XY 0 0) s) as T. cbn [iso_atr] in T.
  assert (B : 0 <= SWAP_XY < 8) by (unfold SWAP_XY; lia). specialize (T B O). rewrite E in T.
  destruct T as [O' [Eo W]]. split; [exact O'|]. split; [exact Eo|]. intros x y.
  unfold ps_covers, ps_count. rewrite Eo, W. unfold iso_cell. cbn [iso_atr SWAP_XY iso_flips iso_px iso_py cflip fst snd].
  rewrite !Z.add_0_r. reflexivity.
Qed.

Lemma rect_swap_transform r : solid r -> is_int (xl r) -> is_int (xh r) -> is_int (yl r) -> is_int (yh r) ->
  rect_transform (mk_iso SWAP_XY 0 0) r = Ok (rect_swap r).
Proof.
  intros [S1 S2] H1 H2 H3 H4. unfold rect_transform. rewrite !swap_int by assumption. cbn [obind].
  unfold ivl_construct. replace (yl r >? yh r) with false by lia. replace (xl r >? xh r) with false by lia. reflexivity.
Qed.
Lemma map_rects_total g h l : (forall r, In r l -> g r = Ok (h r)) -> map_rects g l = Ok (map h l).
Proof.
  induction l as [|r l IH]; intros H; [reflexivity|]. cbn [map_rects map].
  rewrite (H r (or_introl eq_refl)), IH by (intros q Hq; apply H; right; exact Hq). reflexivity.
Qed.
Lemma covers_int s x y : ps_ok s -> ps_covers s x y -> INT_MIN <= x < INT_MAX /\ INT_MIN <= y < INT_MAX.
Proof.
  intros O H. unfold ps_covers, ps_count in H. destruct (ps_orient s); cbn [wind] in H.
  - pose proof (dint_cnt_outside (ps_data s) y x (ok_int _ O) (ok_closed _ O)). lia.
  - pose proof (dint_cnt_outside (ps_data s) x y (ok_int _ O) (ok_closed _ O)). lia.
Qed.

Lemma get_rectangles_sliced_spec o s : ps_ok s -> exists rs s', ps_get_rectangles_sliced o s = Ok (rs, s') /\
  ps_ok s' /\ ps_orient s' = ps_orient s /\ (forall x y, ps_covers s' x y <-> ps_covers s x y) /\
  decomposes o (ps_covers s) rs.
Proof.
  intros O. unfold ps_get_rectangles_sliced. destruct (orient_eqb_spec o (ps_orient s)) as [E|E].
  - destruct (get_rectangles_spec s O) as [rs [s' [E1 [K1 [K2 [K3 K4]]]]]]. rewrite E1. cbn [lift].
    exists rs, s'. rewrite E. tauto.
  - destruct (swap_ok s O) as [t Et]. rewrite Et. cbn [obind].
    destruct (swap_covers s t O Et) as [Ot [Eo C]].
    destruct (get_rectangles_spec t Ot) as [rs [s' [E1 [K1 [K2 [K3 K4]]]]]]. rewrite E1. cbn [lift obind].
    rewrite (map_rects_total _ rect_swap).
    + cbn [obind]. exists (map rect_swap rs), s. split; [reflexivity|]. split; [exact O|]. split; [reflexivity|].
      split; [reflexivity|]. apply decomposes_swap in K4.
      replace (other (ps_orient t)) with o in K4 by (rewrite Eo; destruct o, (ps_orient s); cbn [other]; congruence).
      eapply decomposes_ext; [|exact K4]. intros x y. cbn beta. apply C.
    + intros r Hr. destruct K4 as [_ [_ Sl]]. apply Sl in Hr. pose proof (slab_solid _ _ _ Hr) as [S1 S2].
      pose proof (slab_inside _ _ _ Hr) as In.
      assert (C1 : in_rect r (xl r) (yl r) = true) by (unfold in_rect; lia).
      assert (C2 : in_rect r (xh r - 1) (yh r - 1) = true) by (unfold in_rect; lia).
      apply In in C1. apply In in C2. apply (covers_int t _ _ Ot) in C1. apply (covers_int t _ _ Ot) in C2.
      apply rect_swap_transform; unfold is_int; try lia. split; assumption.
Qed.

Lemma free_get_rectangles_spec s : ps_ok s -> exists rs s', free_get_rectangles s = Some (rs, s') /\
  ps_ok s' /\ ps_orient s' = ps_orient s /\ (forall x y, ps_covers s' x y <-> ps_covers s x y) /\
  decomposes Vertical (ps_covers s) rs.
Proof.
  intros O. destruct (clean_is_clean_data s O) as [s1 [E [O1 [Eo [_ C]]]]].
  unfold free_get_rectangles. rewrite E. cbn [bind].
  destruct (ps_assign_set_spec Vertical s1 O1) as [A1 [A2 A3]].
  destruct (get_rectangles_spec _ A1) as [rs [s' [E1 [_ [_ [_ K4]]]]]]. rewrite E1. cbn [bind].
  exists rs, s1. split; [reflexivity|]. split; [exact O1|]. split; [exact Eo|]. split; [exact C|].
  rewrite A2 in K4. eapply decomposes_ext; [|exact K4]. intros x y. rewrite <- C.
  unfold ps_covers, ps_count. rewrite A2, A3. reflexivity.
Qed.

(* ---------- in reachable states ---------- *)
Lemma get_rectangles_cor st i : reachable st -> exists rs s, ps_get_rectangles (st i) = Some (rs, s) /\
  decomposes (ps_orient (st i)) (ps_covers (st i)) rs /\
  ps_orient s = ps_orient (st i) /\ (forall x y, ps_covers s x y <-> ps_covers (st i) x y).
Proof.
  intros H. destruct (get_rectangles_spec _ (reachable_ok st i H)) as [rs [s [E [_ [K2 [K3 K4]]]]]].
  exists rs, s. tauto.
Qed.
Lemma get_rectangles_sliced_cor st i o : reachable st -> exists rs s, ps_get_rectangles_sliced o (st i) = Ok (rs, s) /\
  decomposes o (ps_covers (st i)) rs /\
  ps_orient s = ps_orient (st i) /\ (forall x y, ps_covers s x y <-> ps_covers (st i) x y).
Proof.
  intros H. destruct (get_rectangles_sliced_spec o _ (reachable_ok st i H)) as [rs [s [E [_ [K2 [K3 K4]]]]]].
  exists rs, s. tauto.
Qed.
Lemma free_get_rectangles_cor st i : reachable st -> exists rs s, free_get_rectangles (st i) = Some (rs, s) /\
  decomposes Vertical (ps_covers (st i)) rs /\
  ps_orient s = ps_orient (st i) /\ (forall x y, ps_covers s x y <-> ps_covers (st i) x y).
Proof.
  intros H. destruct (free_get_rectangles_spec _ (reachable_ok st i H)) as [rs [s [E [_ [K2 [K3 K4]]]]]].
  exists rs, s. tauto.
Qed.

(* inserting the rectangles into an empty set gives the region back *)
Definition insert_rects (rs : list rect) (s : pset) : pset := fold_left (fun s r => ps_insert_rect s r false) rs s.
Lemma insert_rects_spec rs : forall s, ps_ok s ->
  (forall r, In r rs -> rect_ok r /\ is_int (xl r) /\ is_int (xh r) /\ is_int (yl r) /\ is_int (yh r)) ->
  ps_ok (insert_rects rs s) /\ ps_orient (insert_rects rs s) = ps_orient s /\
  forall x y, ps_count (insert_rects rs s) x y = ps_count s x y + cover_count rs x y.
Proof.
  induction rs as [|r rs IH]; intros s O H; unfold insert_rects; cbn [fold_left cover_count].
  - split; [exact O|]. split; [reflexivity|]. intros; lia.
  - destruct (H r (or_introl eq_refl)) as [H0 [H1 [H2 [H3 H4]]]].
    destruct (ps_insert_rect_spec s r false O H0 H1 H2 H3 H4) as [O1 [E1 C1]].
    destruct (IH (ps_insert_rect s r false) O1) as [O2 [E2 C2]]; [intros q Hq; apply H; right; exact Hq|].
    fold (insert_rects rs (ps_insert_rect s r false)).
    split; [exact O2|]. split; [congruence|]. intros x y. rewrite C2. unfold ps_count. rewrite E1, C1.
    destruct (in_rect r x y); cbn [b2z]; lia.
Qed.
Lemma ps_new_ok o : ps_ok (ps_new o).
Proof.
  constructor; cbn [ps_new ps_data ps_dirty ps_unsorted].
  - apply closed_nil.
  - constructor.
  - intros _. constructor.
  - intros _. split; [apply clean_ok_nil|]. intros x y. left; reflexivity.
Qed.
Lemma roundtrip_cor st i o rs s : reachable st -> ps_get_rectangles_sliced o (st i) = Ok (rs, s) ->
  exists t1 t2, ps_eq (insert_rects rs (ps_new (ps_orient (st i)))) (st i) = Some (true, (t1, t2)).
Proof.
  intros H E. pose proof (reachable_ok st i H) as O.
  destruct (get_rectangles_sliced_spec o _ O) as [rs' [s' [E' [_ [_ [_ D]]]]]].
  rewrite E' in E. injection E as -> _.
  destruct (insert_rects_spec rs (ps_new (ps_orient (st i))) (ps_new_ok _)) as [O2 [E2 C2]].
  { intros r Hr. destruct D as [_ [_ Sl]]. apply Sl in Hr. pose proof (slab_solid _ _ _ Hr) as [S1 S2].
    pose proof (slab_inside _ _ _ Hr) as In.
    assert (C1 : in_rect r (xl r) (yl r) = true) by (unfold in_rect; lia).
    assert (C2 : in_rect r (xh r - 1) (yh r - 1) = true) by (unfold in_rect; lia).
    apply In in C1. apply In in C2. apply (covers_int _ _ _ O) in C1. apply (covers_int _ _ _ O) in C2.
    unfold rect_ok, is_int. lia. }
  destruct (ps_eq_spec _ _ O2 O) as [b [t1 [t2 [K1 [_ [_ K]]]]]]; [rewrite E2; reflexivity|].
  exists t1, t2. rewrite K1. do 2 f_equal. apply K. intros x y. destruct D as [[_ [_ T]] _].
  specialize (T x y). rewrite <- cover_count_pos in T. specialize (C2 x y).
  assert (Z0 : ps_count (ps_new (ps_orient (st i))) x y = 0) by (unfold ps_count, ps_new; cbn [ps_orient ps_data]; destruct (ps_orient (st i)); reflexivity).
  unfold ps_covers in T. unfold ps_count in *. lia.
Qed.
