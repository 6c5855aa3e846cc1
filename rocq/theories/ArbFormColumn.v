(* The vertices of a column, from below. *)
From Verif Require Import Base Units Outcome Scan90Spec Poly90Spec Poly90Model Poly90Proofs GeoSpec IvlModel RectModel SegModel PolySpec PolyModel PolyEdge ScanBaseModel ScanBaseOab SnapModel SnapSpec SnapProofs SnapLoops ArbSpec ArbOrder ArbSums ArbModel ArbMaps ArbLess ArbLine ArbColumn ArbBool ArbSetModel ArbSetProofs ArbSetCor ArbFormSpec ArbFormModel ArbFormChains ArbFormPoint ArbFormGeo ArbFormLine ArbFormVertex.
From Coq Require Import Reals Lra Sorting.Sorted Sorting.Permutation.

Lemma perm_filter_or {A : Type} (f g h : A -> bool) l : (forall a, In a l -> h a = f a || g a) -> (forall a, In a l -> f a = true -> g a = false) -> Permutation (filter h l) (filter g l ++ filter f l).
Proof.
  induction l as [|a l IH]; intros H D; [apply Permutation_refl|]. assert (I : Permutation (filter h l) (filter g l ++ filter f l)) by (apply IH; intros b B; [apply H|apply D]; right; exact B).
  cbn [filter]. pose proof (H a (or_introl eq_refl)) as Ha. pose proof (D a (or_introl eq_refl)) as Da. destruct (f a); cbn [orb] in Ha.
  - rewrite (Da eq_refl), Ha. eapply Permutation_trans; [apply perm_skip, I|apply Permutation_middle].
  - rewrite Ha. destruct (g a); [cbn [app]; apply perm_skip, I|exact I].
Qed.
Lemma inv_nodup st hl act : Inv st hl act -> NoDup (map snd act).
Proof.
  intros [op [P A N _ _ _ _]]. eapply Permutation_NoDup; [apply Permutation_map, A|]. apply (nodup_back (flat_map ids hl)). 
  match goal with |- NoDup (_ ++ ?x) => replace x with (flat_map ids op) end; [rewrite <- flat_map_app; eapply Permutation_NoDup; [apply perm_flat, P|exact N]|].
  clear. induction op as [|c op IH]; [reflexivity|]. cbn [flat_map]. rewrite map_app. f_equal. exact IH.
Qed.
Lemma nodup_front {A : Type} (a b : list A) : NoDup (a ++ b) -> NoDup a.
Proof. intros N. apply (nodup_back b). eapply Permutation_NoDup; [apply Permutation_app_comm|exact N]. Qed.
Lemma nodup_both {A : Type} (a b : list A) : NoDup a -> NoDup b -> (forall x, In x a -> ~ In x b) -> NoDup (a ++ b).
Proof.
  intros N M D. induction N as [|x a I N IH]; [exact M|]. cbn [app]. constructor; [|apply IH; intros z Z; apply D; right; exact Z]. intros K. apply in_app_or in K as [K|K]; [contradiction|]. apply (D x); [left; reflexivity|exact K].
Qed.
Definition lk (p : point) (act : list aent) (t : nat) : point := match find (fun a => Nat.eqb (snd a) t) act with Some a => fst (fst a) | None => p end.
Lemma lk_ok p act a : NoDup (map snd act) -> In a act -> lk p act (snd a) = fst (fst a).
Proof.
  unfold lk. induction act as [|b act IH]; intros N I; [destruct I|]. cbn [map] in N. inversion N as [|? ? N1 N2]; subst. cbn [find]. destruct (Nat.eqb_spec (snd b) (snd a)) as [Q|Q].
  - destruct I as [<-|I]; [reflexivity|]. exfalso. apply N1. rewrite Q. apply in_map, I.
  - destruct I as [<-|I]; [congruence|]. apply IH; assumption.
Qed.

Section col.
  Variable r : list pedge.
  Hypothesis nd : NoDup (map fst r).
  Hypothesis nod0 : noded (map fst r).
  Hypothesis ge : good_edges r.
  Hypothesis one : forall e c, In (e, c) r -> c = 1 \/ c = -1.
  Hypothesis clo : closed (as_set r).
  Hypothesis dep : forall x y, b01 (depth_below (as_set r) 0 x y) /\ b01 (depth_below_left (as_set r) 0 x y).
  Notation l := (fl r).
  Notation E := (map fst (fl r)).
  Notation ow := (ow r).
  Let nodE : noded E := nod r nod0.
  Let oE := ordE' r ge.
  Let fE := fitE' r ge.

  Lemma r_perm (c : seg -> bool) (m : list seg) : NoDup m -> (forall e, In e m <-> In e E /\ c e = true) -> Permutation (filter (fun e => c (fst e)) r) (map (fun e => (e, ow e)) m).
  Proof.
    intros N H. assert (NR : NoDup r) by (apply (NoDup_map_inv fst), nd). apply NoDup_Permutation.
    - apply NoDup_filter, NR.
    - apply (NoDup_map_inv fst). rewrite map_map. cbn [fst]. rewrite map_id. exact N.
    - intros [e k]. rewrite filter_In, in_map_iff. cbn [fst]. split.
      + intros [A B]. exists e. rewrite (own_r r nd e k A). split; [reflexivity|]. apply H. split; [apply (r_E r e k A)|exact B].
      + intros [f [Q F]]. assert (f = e /\ ow f = k) as [-> <-] by (split; congruence). apply H in F as [F1 F2]. split; [apply r_own; assumption|exact F2].
  Qed.

  Variable X : Z.
  Variable d : list felem.
  Hypothesis Gd : fgood E d.
  Hypothesis Hd : forall e, In e (map fst d) <-> In e E /\ px (s_low e) < X <= px (s_high e).
  Hypothesis Cd : forall a, In a d -> fst (snd a) = ow (fst a).

  Definition doneH (lim : Z) (e : seg) : bool := (px (s_high e) <? X) || ((px (s_high e) =? X) && (py (s_high e) <? lim)).
  Definition dleft (lim : Z) : list felem := filter (fun a => negb (doneH lim (fst a))) d.
  Definition newb (lim : Z) (e : seg) : bool := (px (s_low e) =? X) && (py (s_low e) <? lim) && nvb e.
  Definition newl (lim : Z) : list pedge := filter (fun e => newb lim (fst e)) r.
  Definition doneE (lim : Z) : list pedge := filter (fun e => doneH lim (fst e)) r.
  Definition stops (ys : list (Z * list (point * Z))) : list Z := map fst ys.
  Definition vst (lim : Z) (ys : list (Z * list (point * Z))) (v : vtail) (hl : list chain) (va : list aent) : Prop :=
    match v with
    | None => hl = [] /\ va = [] /\ (forall e, In e E -> vertical_edge e = true -> px (s_low e) = X -> py (s_low e) < lim -> py (s_high e) < lim)
    | Some (q, c, t) =>
        (exists e, In e E /\ vertical_edge e = true /\ s_low e = q /\ px q = X /\ py q < lim /\ lim <= py (s_high e) /\ c = ow e /\ hl = [] /\ va = [(q, - c, t)]) \/
        (px q = X /\ c = 0 /\ va = [] /\ (exists hc, hl = [hc] /\ In t (ids hc)) /\
         exists y evs ys', ys = (y, evs) :: ys' /\ Dbl r X y = 1 /\ (forall e, In e E -> finishes X y e = false) /\ (forall e, In e E -> v_dn X y e = false))
    end.
  Record cinv (lim : Z) (ys : list (Z * list (point * Z))) (v : vtail) (elems : list felem) (gone : list seg) (st : fstate) : Prop := mk_ci {
    c_vtx : forall y, vertex l X y -> y < lim \/ In y (stops ys);
    c_ys : forall y evs, In (y, evs) ys -> lim <= y /\ vertex l X y /\ Permutation (filter (fun e => pt_less (mk_pt X y) (fst e)) evs) (starts r X y);
    c_srt : StronglySorted Z.lt (stops ys);
    c_el : Permutation (map key elems) (newl lim);
    c_gone : NoDup gone /\ forall e, In e gone <-> In e (map fst d) /\ doneH lim e = true;
    c_t : Permutation (T st) (map directed (doneE lim));
    c_v : exists hl va, vst lim ys v hl va /\ Inv st hl (map ent (dleft lim) ++ map ent elems ++ va) }.

  Lemma low_vertex e : In e E -> px (s_low e) = X -> vertex l X (py (s_low e)).
  Proof. intros H Q. exists e. split; [exact H|]. left. destruct (s_low e) as [a b]. cbn [px py] in *. subst a. reflexivity. Qed.
  Lemma high_vertex e : In e E -> px (s_high e) = X -> vertex l X (py (s_high e)).
  Proof. intros H Q. exists e. split; [exact H|]. right. destruct (s_high e) as [a b]. cbn [px py] in *. subst a. reflexivity. Qed.

  Section step.
    Variables (lim y : Z) (evs : list (point * Z)) (ys : list (Z * list (point * Z))) (v : vtail) (elems : list felem) (gone : list seg) (st : fstate).
    Hypothesis ci : cinv lim ((y, evs) :: ys) v elems gone st.
    Notation p := (mk_pt X y).
    Lemma vtx : vertex l X y.
    Proof. apply (c_ys _ _ _ _ _ _ ci y evs). left. reflexivity. Qed.
    Lemma lim_y : lim <= y.
    Proof. apply (c_ys _ _ _ _ _ _ ci y evs). left. reflexivity. Qed.
    Lemma next_gt z : In z (stops ys) -> y < z.
    Proof. intros H. pose proof (c_srt _ _ _ _ _ _ ci) as S. unfold stops in S. cbn [map fst] in S. apply StronglySorted_inv in S as [_ F]. rewrite Forall_forall in F. apply F, H. Qed.
    Lemma gapless z : vertex l X z -> lim <= z -> z = y \/ In z (stops ys) /\ y < z.
    Proof. intros V L. destruct (c_vtx _ _ _ _ _ _ ci z V) as [K|[K|K]]; [lia|left; symmetry; exact K|right]. split; [exact K|apply next_gt, K]. Qed.
    Lemma ends_at e : In e E -> px (s_high e) = X -> (lim <= py (s_high e) < y + 1 <-> s_high e = p).
    Proof.
      intros H Q. split.
      - intros K. destruct (gapless (py (s_high e)) (high_vertex e H Q) ltac:(lia)) as [J|[_ J]]; [|lia]. destruct (s_high e) as [a b]. cbn [px py] in *. congruence.
      - intros K. rewrite K. cbn [py]. pose proof lim_y. lia.
    Qed.
    Lemma starts_at e : In e E -> px (s_low e) = X -> (lim <= py (s_low e) < y + 1 <-> s_low e = p).
    Proof.
      intros H Q. split.
      - intros K. destruct (gapless (py (s_low e)) (low_vertex e H Q) ltac:(lia)) as [J|[_ J]]; [|lia]. destruct (s_low e) as [a b]. cbn [px py] in *. congruence.
      - intros K. rewrite K. cbn [py]. pose proof lim_y. lia.
    Qed.
    Lemma done_step e : In e E -> doneH (y + 1) e = doneH lim e || eq_pt (s_high e) p.
    Proof.
      intros H. apply ArbSums.bool_eq. rewrite orb_true_iff, eq_pt_iff. unfold doneH. pose proof lim_y as L. split.
      - intros K. destruct (Z.ltb_spec (px (s_high e)) X) as [A|A]; cbn [orb] in *; [left; reflexivity|]. apply andb_true_iff in K as [K1 K2]. apply Z.eqb_eq in K1. destruct (Z.ltb_spec (py (s_high e)) lim) as [B|B]; [left; rewrite K1, Z.eqb_refl; reflexivity|right]. apply ends_at; [exact H|exact K1|lia].
      - intros [K|K]; [lia|]. rewrite K. cbn [px py]. rewrite Z.eqb_refl. lia.
    Qed.
    Lemma done_not e : In e E -> doneH lim e = true -> eq_pt (s_high e) p = false.
    Proof. intros H K. apply not_true_iff_false. rewrite eq_pt_iff. intros Q. unfold doneH in K. rewrite Q in K. cbn [px py] in K. pose proof lim_y. lia. Qed.
    Lemma new_step e : In e E -> newb (y + 1) e = newb lim e || begins X y e.
    Proof.
      intros H. unfold newb, begins. destruct (nvb e); rewrite ?andb_true_r, ?andb_false_r; [|reflexivity]. apply ArbSums.bool_eq. rewrite orb_true_iff, eq_pt_iff. pose proof lim_y as L. split.
      - intros K. apply andb_true_iff in K as [K1 K2]. apply Z.eqb_eq in K1. destruct (Z.ltb_spec (py (s_low e)) lim) as [B|B]; [left; rewrite K1, Z.eqb_refl; reflexivity|right]. apply starts_at; [exact H|exact K1|lia].
      - intros [K|K]; [lia|]. rewrite K. cbn [px py]. rewrite Z.eqb_refl. lia.
    Qed.
    Lemma new_not e : In e E -> newb lim e = true -> begins X y e = false.
    Proof. intros H K. unfold begins, newb in *. apply not_true_iff_false. rewrite andb_true_iff, eq_pt_iff. intros [Q _]. rewrite Q in K. cbn [px py] in K. pose proof lim_y. lia. Qed.
    Lemma in_r_E (e : pedge) : In e r -> In (fst e) E.
    Proof. destruct e as [s c]. apply r_E. Qed.

    (* the scan line at the vertex *)
    Lemma line_ok : exists lo here hi, d = lo ++ here ++ hi /\ f_lb X (mk_seg p (mk_pt X (y + 1))) d = Ok (length lo) /\ coming p (skipn (length lo) d) = here /\
      nth_error d (length lo + length here) = hd_error hi /\ (forall a, In a lo -> (height (fst a) (IZR X) < IZR y)%R) /\ (forall a, In a here -> s_high (fst a) = p) /\ (forall a, In a hi -> (IZR y < height (fst a) (IZR X))%R) /\
      NoDup (map fst here) /\ (forall e, In e (map fst here) <-> In e E /\ finishes X y e = true) /\ Permutation (dleft lim) (here ++ dleft (y + 1)).
    Proof.
      destruct (vertex_fits l (fit r ge) X y vtx) as [Fx Fy].
      destruct (line_split E nodE oE fE X y Fx Fy (end_here r nod0 ge X y vtx) d Gd) as [lo [here [hi [L1 [L2 [L3 [L4 [L5 L6]]]]]]]].
      { intros a A. apply Hd, in_map, A. }
      assert (HH : forall a, In a d -> s_high (fst a) = p -> height (fst a) (IZR X) = IZR y).
      { intros a A Q. destruct (proj2 Gd a A) as [_ K]. pose proof (height_high (fst a) K) as J. rewrite Q in J. exact J. }
      assert (IL : forall a, In a lo -> In a d) by (intros a A; rewrite L1; apply in_or_app; left; exact A).
      assert (IH : forall a, In a here -> In a d) by (intros a A; rewrite L1; apply in_or_app; right; apply in_or_app; left; exact A).
      assert (II : forall a, In a hi -> In a d) by (intros a A; rewrite L1; apply in_or_app; right; apply in_or_app; right; exact A).
      assert (ND : NoDup (map fst here)).
      { pose proof (fgood_nodup E d Gd) as N. rewrite L1, !map_app in N. apply nodup_back in N. apply (nodup_front _ _ N). }
      assert (FI : forall e, In e (map fst here) <-> In e E /\ finishes X y e = true).
      { intros e. split.
        - intros K. apply in_map_iff in K as [a [<- K]]. destruct (proj2 Gd a (IH a K)) as [K1 K2]. split; [exact K1|]. apply (finishes_iff r ge X y _ K1). split; [apply L5, K|exact K2].
        - intros [K1 K2]. apply (finishes_iff r ge X y _ K1) in K2 as [K2 K3]. assert (K : In e (map fst d)) by (apply Hd; split; [exact K1|]; rewrite K2 in *; cbn [px] in *; lia).
          apply in_map_iff in K as [a [<- K]]. pose proof (HH a K K2) as J. rewrite L1 in K. apply in_app_or in K as [K|K]; [apply L4 in K; lra|]. apply in_app_or in K as [K|K]; [apply in_map, K|apply L6 in K; lra]. }
      exists lo, here, hi. split; [exact L1|]. split; [exact L2|]. split; [exact L3|]. split.
      { rewrite L1. rewrite nth_error_app2 by lia. rewrite nth_error_app2 by lia. replace (length lo + length here - length lo - length here)%nat with O by lia. destruct hi; reflexivity. }
      split; [exact L4|]. split; [exact L5|]. split; [exact L6|]. split; [exact ND|]. split; [exact FI|].
      unfold dleft. eapply Permutation_trans; [apply (perm_filter_or (fun a => negb (doneH (y + 1) (fst a))) (fun a => eq_pt (s_high (fst a)) p))|].
      - intros a A. destruct (proj2 Gd a A) as [K _]. rewrite (done_step _ K). pose proof (done_not _ K) as J. destruct (doneH lim (fst a)), (eq_pt (s_high (fst a)) p); try reflexivity. discriminate J. reflexivity.
      - intros a A. destruct (proj2 Gd a A) as [K _]. rewrite (done_step _ K). destruct (eq_pt (s_high (fst a)) p); [|reflexivity]. rewrite orb_true_r. discriminate.
      - apply Permutation_app_tail. rewrite L1, !filter_app. rewrite (filter_none _ lo), (filter_all _ here), (filter_none _ hi); [rewrite app_nil_r; apply Permutation_refl| | |].
        + intros a A. apply not_true_iff_false. rewrite eq_pt_iff. intros Q. apply HH in Q; [|apply II, A]. apply L6 in A. lra.
        + intros a A. apply eq_pt_iff, L5, A.
        + intros a A. apply not_true_iff_false. rewrite eq_pt_iff. intros Q. apply HH in Q; [|apply IL, A]. apply L4 in A. lra.
    Qed.
    (* the vertical edge below *)
    Lemma dn_ok hl va : vst lim ((y, evs) :: ys) v hl va -> match v with
      | None => one_of r (v_dn X y) None
      | Some (q, c, t) => px q = X /\ ((exists e, one_of r (v_dn X y) (Some e) /\ s_low e = q /\ s_high e = p /\ py q < y /\ c = ow e /\ hl = [] /\ va = [(q, - c, t)]) \/
          (c = 0 /\ va = [] /\ (exists hc, hl = [hc] /\ In t (ids hc)) /\ Dbl r X y = 1 /\ (forall e, In e E -> finishes X y e = false) /\ one_of r (v_dn X y) None)) end.
    Proof.
      pose proof vtx as VT. pose proof lim_y as LY. pose proof ends_at as EA. pose proof next_gt as NG. pose proof (c_vtx _ _ _ _ _ _ ci) as CV.
      destruct v as [[[q c] t]|]; cbn [vst].
      - intros [[e [E1 [E2 [E3 [E4 [E5 [E6 [E7 [E8 E9]]]]]]]]]|[E0 [E1 [E2 [E3 [y' [evs' [ys' [Q [E4 [E5 E6]]]]]]]]]]].
        + split; [exact E4|]. left. exists e. pose proof (proj1 (vert_iff r ge e E1) E2) as [V1 V2]. rewrite E3 in V1, V2.
          assert (HP : s_high e = p).
          { apply EA; [exact E1|congruence|]. split; [exact E6|]. destruct (Z.lt_ge_cases (py (s_high e)) (y + 1)) as [K|K]; [exact K|]. exfalso. apply (vertex_inside l nodE (ord r ge) X y e VT E1 E2); [rewrite E3; exact E4|rewrite E3; lia|lia]. }
          split; [|split; [exact E3|split; [exact HP|split; [lia|auto]]]]. split; [exact E1|]. split; [unfold v_dn; rewrite E2, andb_true_r; apply eq_pt_iff, HP|].
          intros f F1 F2. unfold v_dn in F2. apply andb_true_iff in F2 as [F2 F3]. apply eq_pt_iff in F2. pose proof (proj1 (vert_iff r ge f F1) F3) as [W1 W2]. rewrite F2 in W1, W2. cbn [px py] in W1, W2.
          apply (overlap l nodE (ord r ge) e f E1 F1 E2 F3); [congruence|rewrite F2, E3; cbn [py]; lia|rewrite HP; cbn [py]; lia].
        + assert (y' = y) as -> by congruence. split; [exact E0|]. right. split; [exact E1|]. split; [exact E2|]. split; [exact E3|]. split; [exact E4|]. split; [exact E5|exact E6].
      - intros [_ [_ H]]. intros f F1. unfold v_dn. destruct (eq_pt (s_high f) p) eqn:Q; [|reflexivity]. apply eq_pt_iff in Q. destruct (vertical_edge f) eqn:V; [|reflexivity]. exfalso.
        pose proof (proj1 (vert_iff r ge f F1) V) as [W1 W2]. rewrite Q in W1, W2. cbn [px py] in W1, W2. destruct (CV _ (low_vertex f F1 W1)) as [K|[K|K]].
        + pose proof (H f F1 V W1 K) as J. rewrite Q in J. cbn [py] in J. lia.
        + cbn [fst] in K. lia.
        + apply NG in K. lia.
    Qed.
    (* what the column looks like above the vertex *)
    Lemma vtx_next z : vertex l X z -> z < y + 1 \/ In z (stops ys).
    Proof. intros V. destruct (c_vtx _ _ _ _ _ _ ci z V) as [K|[K|K]]; [pose proof lim_y; left; lia|left; cbn [fst] in K; lia|right; exact K]. Qed.
    Lemma up_none e : one_of r (v_up X y) None -> In e E -> vertical_edge e = true -> px (s_low e) = X -> py (s_low e) < y + 1 -> py (s_high e) < y + 1.
    Proof.
      intros O E1 E2 E3 E4. destruct (Z.lt_ge_cases (py (s_high e)) (y + 1)) as [K|K]; [exact K|]. exfalso. destruct (Z.eq_dec (py (s_low e)) y) as [Q|Q].
      - specialize (O e E1). unfold v_up in O. rewrite E2, andb_true_r in O. assert (eq_pt (s_low e) p = true); [|congruence]. apply eq_pt_iff. destruct (s_low e) as [a b]. cbn [px py] in *. congruence.
      - apply (vertex_inside l nodE (ord r ge) X y e vtx E1 E2 E3); lia.
    Qed.
    Lemma el_step m new : NoDup m -> (forall e, In e m <-> In e E /\ begins X y e = true) -> Permutation (map key new) (map (fun e => (e, ow e)) m) -> Permutation (map key (elems ++ new)) (newl (y + 1)).
    Proof.
      intros N H P. rewrite map_app. eapply Permutation_trans; [apply Permutation_app_comm|]. eapply Permutation_trans; [apply Permutation_app; [exact P|apply (c_el _ _ _ _ _ _ ci)]|].
      eapply Permutation_trans; [apply Permutation_app_tail, Permutation_sym, (r_perm (begins X y) m N H)|]. apply Permutation_sym. unfold newl. apply (perm_filter_or (fun e => newb lim (fst e)) (fun e => begins X y (fst e))); intros e Ie; apply in_r_E in Ie; [apply new_step, Ie|apply new_not, Ie].
    Qed.
    Lemma gone_step (here : list felem) : NoDup (map fst here) -> (forall e, In e (map fst here) <-> In e E /\ finishes X y e = true) -> NoDup (gone ++ map fst here) /\ forall e, In e (gone ++ map fst here) <-> In e (map fst d) /\ doneH (y + 1) e = true.
    Proof.
      intros N H. destruct (c_gone _ _ _ _ _ _ ci) as [G1 G2]. split.
      - assert (D : forall e, In e gone -> ~ In e (map fst here)).
        { intros e A B. apply G2 in A as [A1 A2]. apply H in B as [B1 B2]. apply (finishes_iff r ge X y e B1) in B2 as [B2 _]. apply (done_not e B1) in A2. rewrite (proj2 (eq_pt_iff _ _) B2) in A2. discriminate. }
        apply nodup_both; assumption.
      - intros e. rewrite in_app_iff, G2, H. split.
        + intros [[A B]|[A B]]; [split; [exact A|]; apply Hd in A as [A _]; rewrite (done_step e A), B; reflexivity|]. apply (finishes_iff r ge X y e A) in B as [B1 B2]. split; [apply Hd; split; [exact A|]; rewrite B1 in *; cbn [px] in *; lia|]. rewrite (done_step e A), (proj2 (eq_pt_iff _ _) B1). apply orb_true_r.
        + intros [A B]. pose proof A as A'. apply Hd in A' as [A1 A2]. rewrite (done_step e A1) in B. apply orb_true_iff in B as [B|B]; [left; auto|right]. split; [exact A1|]. apply (finishes_iff r ge X y e A1). apply eq_pt_iff in B. split; [exact B|]. rewrite B in *. cbn [px] in *. lia.
    Qed.
    Lemma t_step m o : NoDup m -> (forall e, In e m <-> In e E /\ finishes X y e = true) -> one_of r (v_dn X y) o ->
      Permutation (map (fun e => directed (e, ow e)) (m ++ match o with Some e => [e] | None => [] end) ++ map directed (doneE lim)) (map directed (doneE (y + 1))).
    Proof.
      intros N H O. set (mm := m ++ match o with Some e => [e] | None => [] end).
      assert (MM : forall e, In e mm <-> In e E /\ eq_pt (s_high e) p = true).
      { intros e. unfold mm. rewrite in_app_iff, H. split.
        - intros [[A B]|K]; [split; [exact A|unfold finishes in B; apply andb_true_iff in B; apply B]|]. destruct o as [f|]; [|destruct K]. destruct K as [<-|[]]. destruct O as [O1 [O2 _]]. split; [exact O1|unfold v_dn in O2; apply andb_true_iff in O2; apply O2].
        - intros [A B]. destruct (vertical_edge e) eqn:V.
          + right. destruct o as [f|]; [left; symmetry; apply O; [exact A|unfold v_dn; rewrite B, V; reflexivity]|]. specialize (O e A). unfold v_dn in O. rewrite B, V in O. discriminate.
          + left. split; [exact A|]. unfold finishes, nvb. rewrite B, V. reflexivity. }
      assert (NN : NoDup mm).
      { unfold mm. destruct o as [f|]; [|rewrite app_nil_r; exact N]. eapply Permutation_NoDup; [apply Permutation_cons_append|]. constructor; [|exact N]. intros K. apply H in K as [_ K]. destruct O as [_ [O _]]. unfold finishes, nvb in K. unfold v_dn in O. apply andb_true_iff in K as [_ K]. apply andb_true_iff in O as [_ O]. rewrite O in K. discriminate. }
      pose proof (r_perm (fun e => eq_pt (s_high e) p) mm NN MM) as P.
      replace (map (fun e => directed (e, ow e)) mm) with (map directed (map (fun e => (e, ow e)) mm)) by (rewrite map_map; reflexivity). rewrite <- map_app. apply Permutation_map.
      eapply Permutation_trans; [apply Permutation_app_tail, Permutation_sym, P|]. apply Permutation_sym. unfold doneE. apply (perm_filter_or (fun e => doneH lim (fst e)) (fun e => eq_pt (s_high (fst e)) p)); intros e Ie; apply in_r_E in Ie; [apply done_step, Ie|apply done_not, Ie].
    Qed.

    (* after a vertex where no hole has been closed *)
    Definition v_next (s : pstate) (v' : vtail) (st' : fstate) (ys0 : list (Z * list (point * Z))) : Prop := exists hl va, vst (y + 1) ys0 v' hl va /\ Inv st' hl (map ent (dleft (y + 1)) ++ map ent (p_elems s) ++ va).
    Lemma after_stage m o s oth t0 next above : NoDup m -> (forall e, In e m <-> In e E /\ begins X y e = true) -> one_of r (v_up X y) o ->
      stage p elems s (inc_list r m o) [] oth t0 -> Permutation oth (map ent (dleft (y + 1)) ++ map ent elems) ->
      exists v', handle_hole X p next above s = Ok (p_st s, v') /\ v_next s v' (p_st s) ys /\ Permutation (map key (p_elems s)) (newl (y + 1)) /\ Permutation (T (p_st s)) t0.
    Proof.
      intros N H O [new [va [E1 [E2 [E3 [E4 E5]]]]]] PO. rewrite inc_keys in E2 by (intros e Ie; apply H in Ie as [I1 I2]; apply (begins_iff r ge X y e I1) in I2; apply I2).
      rewrite inc_flags in E3. unfold handle_hole. destruct o as [e|].
      - cbn [vrel] in E3. destruct E3 as [Q [NR RC]]. destruct (p_rv s) as [t|]; [|congruence]. unfold i_count in Q, RC. cbn [fst snd] in Q, RC. rewrite Z.opp_involutive in RC. destruct O as [O1 [O2 O3]].
        rewrite (proj2 (Z.eqb_neq (p_rc s) 0)) by (pose proof (own1 r nd one e O1); lia). exists (Some (p, p_rc s, t)). split; [reflexivity|]. unfold v_up in O2. apply andb_true_iff in O2 as [O2 O4]. apply eq_pt_iff in O2. pose proof (proj1 (vert_iff r ge e O1) O4) as [V1 V2]. rewrite O2 in V2. cbn [py] in V2.
        split; [|split; [rewrite E1; apply (el_step m new N H E2)|exact E5]]. exists [], va. split.
        + left. exists e. cbn [px py]. rewrite RC. repeat (split; [assumption || reflexivity || lia|]). exact Q.
        + eapply Inv_perm; [exact E4|]. rewrite E1, map_app. clear - PO. pcount ae_dec.
      - cbn [vrel] in E3. destruct E3 as [-> [_ ->]]. exists None. split; [reflexivity|]. split; [|split; [rewrite E1; apply (el_step m new N H E2)|exact E5]]. exists [], []. split.
        + split; [reflexivity|]. split; [reflexivity|]. intros e I1 I2 I3 I4. apply (up_none e O I1 I2 I3 I4).
        + eapply Inv_perm; [exact E4|]. rewrite E1, map_app. clear - PO. pcount ae_dec.
    Qed.
    (* the left edges up to the next vertex, none below the edge above *)
    Lemma carry z ez ys' lo here hi above : ys = (z, ez) :: ys' -> d = lo ++ here ++ above :: hi -> (forall a, In a lo -> (height (fst a) (IZR X) < IZR y)%R) -> (forall a, In a here -> s_high (fst a) = p) ->
      (IZR z < height (fst above) (IZR X))%R -> Dal r X y = 1 -> one_of r (v_up X y) None ->
      Dbl r X z = 1 /\ (forall e, In e E -> finishes X z e = false) /\ (forall e, In e E -> v_dn X z e = false).
    Proof.
      intros Q L1 L4 L5 HA DA O. assert (YZ : y < z) by (apply next_gt; rewrite Q; left; reflexivity). apply IZR_lt in YZ as YZ'.
      assert (VZ : vertex l X z) by (apply (c_ys _ _ _ _ _ _ ci z ez); right; rewrite Q; left; reflexivity).
      assert (SP : forall e, In e E -> px (s_low e) < X <= px (s_high e) -> (height e (IZR X) <= IZR y)%R \/ (IZR z < height e (IZR X))%R).
      { intros e He K. assert (I : In e (map fst d)) by (apply Hd; auto). apply in_map_iff in I as [a [<- I]]. pose proof (proj2 Gd a I) as [G1 G2]. rewrite L1 in I. apply in_app_or in I as [I|I]; [left; apply L4 in I; lra|]. apply in_app_or in I as [I|I].
        - left. apply L5 in I. pose proof (height_high (fst a) G2) as J. rewrite I in J. cbn [px py] in J. lra.
        - right. destruct I as [<-|I]; [exact HA|]. pose proof Gd as G. rewrite L1, app_assoc in G. assert (GG : fgood E (above :: hi)).
          { clear - G. induction (lo ++ here) as [|b n IH]; [exact G|]. cbn [app] in G. apply IH. apply (fgood_cons E b _ G). }
          pose proof (fgood_le E nodE oE X above hi a GG) as J. assert (FA : fall X (above :: hi)) by (intros b B; apply Hd, in_map; rewrite L1, app_assoc; apply in_or_app; right; exact B). specialize (J FA I). lra. }
      split; [|split].
      - rewrite <- DA, (al_left r nod0 ge X y vtx). unfold Dbl, depth_below_left. apply tot_ext. intros e Ie. assert (He : In (fst e) E) by (apply in_map, Ie). rewrite (ArbSums.bool_eq (spans_l (fst e) (IZR X) && rltb (height (fst e) (IZR X)) (IZR z)) (spans_l (fst e) (IZR X) && rleb (height (fst e) (IZR X)) (IZR y))); [reflexivity|].
        rewrite !andb_true_iff, rltb_iff, rleb_iff, spans_lz. split; intros [A B]; (split; [exact A|]); destruct (SP _ He A); lra.
      - intros e He. apply not_true_iff_false. intros K. apply (finishes_iff r ge X z e He) in K as [K1 K2]. pose proof (height_high e K2) as J. rewrite K1 in J. cbn [px py] in J. assert (A : px (s_low e) < X <= px (s_high e)) by (rewrite K1 in *; cbn [px] in *; lia). destruct (SP e He A); lra.
      - intros e He. apply not_true_iff_false. intros K. unfold v_dn in K. apply andb_true_iff in K as [K1 K2]. apply eq_pt_iff in K1. pose proof (proj1 (vert_iff r ge e He) K2) as [W1 W2]. rewrite K1 in W1, W2. cbn [px py] in W1, W2.
        destruct (vtx_next _ (low_vertex e He W1)) as [J|J].
        + pose proof (up_none e O He K2 W1 J) as U. rewrite K1 in U. cbn [py] in U. lia.
        + assert (S : StronglySorted Z.lt (stops ys)) by (pose proof (c_srt _ _ _ _ _ _ ci) as S; unfold stops in S; cbn [map] in S; apply StronglySorted_inv in S; apply S). rewrite Q in J, S. unfold stops in J, S. cbn [map fst] in J, S. apply StronglySorted_inv in S as [_ F]. rewrite Forall_forall in F. destruct J as [J|J]; [lia|]. apply F in J. lia.
    Qed.
    (* after a vertex where a hole has been closed *)
    Lemma after_hole s oth t0 lo here hi t hc : d = lo ++ here ++ hi -> (forall a, In a lo -> (height (fst a) (IZR X) < IZR y)%R) -> (forall a, In a here -> s_high (fst a) = p) -> (forall a, In a hi -> (IZR y < height (fst a) (IZR X))%R) ->
      (forall e, In e E -> begins X y e = false) -> one_of r (v_up X y) None -> Dal r X y = 1 -> p_rv s = Some t -> p_rc s = 0 -> In t (ids hc) -> p_elems s = elems -> Inv (p_st s) [hc] oth -> Permutation (T (p_st s)) t0 ->
      Permutation oth (map ent (dleft (y + 1)) ++ map ent elems) ->
      exists st' v', handle_hole X p (match ys with [] => None | (y', _) :: _ => Some y' end) (hd_error hi) s = Ok (st', v') /\ v_next s v' st' ys /\ Permutation (map key (p_elems s)) (newl (y + 1)) /\ Permutation (T st') t0.
    Proof.
      intros L1 L4 L5 L6 B O DA RV RC IT PE I PT PO. destruct (vertex_fits l (fit r ge) X y vtx) as [Fx Fy].
      assert (EL : Permutation (map key (p_elems s)) (newl (y + 1))).
      { rewrite PE, <- (app_nil_r elems). apply (el_step [] []); [constructor| |apply Permutation_refl]. intros e. split; [intros []|]. intros [A K]. rewrite (B e A) in K. discriminate. }
      assert (AB : exists above hi', hi = above :: hi').
      { destruct hi as [|a hi']; [exfalso|exists a, hi'; reflexivity]. rewrite (al_left r nod0 ge X y vtx) in DA. 
        pose proof (all_left l (ord r ge) clo 0 (IZR X) (IZR (y + 1))) as AL. rewrite plus_IZR in AL. assert (SP : forall e, In e l -> spans_l (fst e) (IZR X) = true -> (height (fst e) (IZR X) <= IZR y)%R).
        { intros e Ie S. apply spans_lz in S. assert (K : In (fst e) (map fst d)) by (apply Hd; split; [apply in_map, Ie|exact S]). apply in_map_iff in K as [a [<- K]]. pose proof (proj2 Gd a K) as [G1 G2]. rewrite L1, app_nil_r in K. apply in_app_or in K as [K|K]; [apply L4 in K; lra|].
          apply L5 in K. pose proof (height_high (fst a) G2) as J. rewrite K in J. cbn [px py] in J. lra. }
        assert (AL0 : depth_below_left l 0 (IZR X) (IZR y + 1) = 0) by (apply AL; intros e Ie S; pose proof (SP e Ie S); lra). clear AL. unfold depth_below_left in AL0.
        assert (QQ : tot (fun e => if spans_l (fst e) (IZR X) && rleb (height (fst e) (IZR X)) (IZR y) then wt 0 e else 0) l = tot (fun e => if spans_l (fst e) (IZR X) && rltb (height (fst e) (IZR X)) (IZR y + 1) then wt 0 e else 0) l); [|lia].
        apply tot_ext. intros e Ie. destruct (spans_l (fst e) (IZR X)) eqn:S; [|reflexivity]. cbn [andb]. pose proof (SP e Ie S) as K. rewrite (proj2 (rleb_iff _ _) K), (proj2 (rltb_iff _ _)) by lra. reflexivity. }
      destruct AB as [above [hi' ->]]. cbn [hd_error]. assert (ID : In above d) by (rewrite L1; apply in_or_app; right; apply in_or_app; right; left; reflexivity). destruct (proj2 Gd above ID) as [GA1 GA2].
      assert (AD : exists st', add_hole (snd (snd above)) t (p_st s) = Ok st' /\ v_next s None st' ys /\ Permutation (T st') t0).
      { destruct (add_hole_ok (p_st s) hc [] (s_low (fst above)) (fst (snd above)) (snd (snd above)) t oth I IT) as [st' [A1 [A2 A3]]].
        - eapply Permutation_in; [apply Permutation_sym, PO|]. apply in_or_app. left. apply in_map_iff. exists above. split; [reflexivity|]. unfold dleft. apply filter_In. split; [exact ID|]. apply negb_true_iff. unfold doneH.
          assert (K : In (fst above) (map fst d)) by (apply in_map, ID). apply Hd in K as [_ K]. destruct (Z.ltb_spec (px (s_high (fst above))) X) as [J|J]; [lia|]. cbn [orb]. destruct (Z.eqb_spec (px (s_high (fst above))) X) as [W|W]; [|reflexivity]. cbn [andb]. apply Z.ltb_ge.
          pose proof (height_high (fst above) GA2) as HH. rewrite W in HH. pose proof (L6 above (or_introl eq_refl)) as LT. rewrite HH in LT. apply lt_IZR in LT. lia.
        - exists st'. split; [exact A1|]. split; [|eapply Permutation_trans; [exact A3|exact PT]]. exists [], []. split.
          + split; [reflexivity|]. split; [reflexivity|]. intros e I1 I2 I3 I4. apply (up_none e O I1 I2 I3 I4).
          + eapply Inv_perm; [exact A2|]. rewrite PE, app_nil_r. exact PO. }
      destruct AD as [st' [A1 [A2 A3]]]. unfold handle_hole. rewrite RV, RC. cbn [Z.eqb].
      assert (YC : ys = [] \/ exists z ez ys', ys = (z, ez) :: ys') by (destruct ys as [|[z ez] ys']; [left; reflexivity|right; exists z, ez, ys'; reflexivity]).
      destruct YC as [->|[z [ez [ys' QY]]]].
      { cbn [obind]. rewrite A1. cbn [obind]. exists st', None. auto. }
      rewrite QY. cbn [obind]. assert (VZ : vertex l X z) by (apply (c_ys _ _ _ _ _ _ ci z ez); right; rewrite QY; left; reflexivity). destruct (vertex_fits l (fit r ge) X z VZ) as [_ Fz].
      pose proof (oab_m1 (mk_pt X z) (fst above) (pt_int_of X z Fx Fz) (fE _ GA1) GA2) as OB. cbn [px py] in OB. destruct (Z.eqb_spec (sb_oab (mk_pt X z) (fst above)) (-1)) as [QO|QO]; cbn [negb].
      - exists (p_st s), (Some (p, 0, t)). split; [reflexivity|]. split; [|split; [exact EL|exact PT]]. exists [hc], []. split; [|eapply Inv_perm; [exact I|rewrite PE, app_nil_r; exact PO]].
        right. split; [reflexivity|]. split; [reflexivity|]. split; [reflexivity|]. split; [exists hc; auto|]. exists z, ez, ys'. split; [reflexivity|]. apply (carry z ez ys' lo here hi' above QY L1 L4 L5); auto. apply OB, QO.
      - rewrite A1. cbn [obind]. exists st', None. rewrite <- QY. auto.
    Qed.

    Definition vt_cent (w : vtail) : list cent := match w with None => [] | Some (q, c, t) => [((- c, t), true)] end.
    Lemma counts_vt cs w : (forall a, In a cs -> fine1 E a) -> match w with None => True | Some (q, c, t) => px q = X end -> counts_of (cs ++ vt_elem p w) = map (fun a => (snd a, false)) cs ++ vt_cent w.
    Proof.
      clear. intros F W. assert (NV : forall a, In a cs -> sb_vertical (fst a) = false) by (intros a A; apply F in A as [_ A]; unfold sb_vertical; lia). unfold counts_of. destruct w as [[[q c] t]|]; cbn [vt_elem vt_cent].
      - rewrite mark_snoc. unfold sb_vertical. cbn [fst snd s_low s_high px]. rewrite W, Z.eqb_refl. reflexivity.
      - rewrite !app_nil_r. apply mark_nv, NV.
    Qed.
    Definition dira (a : aent) : point * point := dirq (fst (fst a)) (snd (fst a)) p.
    Lemma dir_nv e : In e E -> s_high e = p -> vertical_edge e = false -> dirq (s_low e) (ow e) p = directed (e, ow e).
    Proof.
      intros H Q V. unfold dirq, directed. cbn [fst snd]. rewrite V, Q. cbn [xorb]. destruct (own1 r nd one e H) as [-> | ->]; reflexivity.
    Qed.
    Lemma dir_v e : In e E -> s_high e = p -> vertical_edge e = true -> dirq (s_low e) (- ow e) p = directed (e, ow e).
    Proof.
      intros H Q V. unfold dirq, directed. cbn [fst snd]. rewrite V, Q. destruct (own1 r nd one e H) as [-> | ->]; reflexivity.
    Qed.
    Lemma step_ok : exists v' elems' gone' st', column X d ((y, evs) :: ys) v elems gone st = column X d ys v' elems' gone' st' /\ cinv (y + 1) ys v' elems' gone' st'.
    Proof.
      destruct (vertex_fits l (fit r ge) X y vtx) as [Fx Fy].
      destruct line_ok as [lo [here [hi [L1 [L2 [L3 [L4 [L5 [L6 [L7 [NH [FH PD]]]]]]]]]]]].
      assert (IH : forall a, In a here -> In a d) by (intros a A; rewrite L1; apply in_or_app; right; apply in_or_app; left; exact A).
      assert (FINE : forall a, In a here -> fine1 E a /\ s_high (fst a) = p) by (intros a A; split; [apply (proj2 Gd a (IH a A))|apply L6, A]).
      destruct (here_sorted r nod0 ge X y here NH FINE) as [cs [S1 [S2 S3]]].
      destruct (c_ys _ _ _ _ _ _ ci y evs (or_introl eq_refl)) as [_ [_ PE]].
      destruct (incoming_ok r nd nod0 ge X y _ PE) as [is [m [o [I1 [I2 [I3 [I4 I5]]]]]]].
      assert (NM : NoDup m) by apply (sorted_nodup m I3).
      destruct (c_v _ _ _ _ _ _ ci) as [hl [va [VS IV]]]. pose proof (dn_ok hl va VS) as DN.
      assert (FC : forall a, In a cs -> In a here) by (intros a A; eapply Permutation_in; [apply Permutation_sym, S2|exact A]).
      assert (MC : forall e, In e (map fst cs) <-> In e E /\ finishes X y e = true).
      { intros e. rewrite <- FH. split; apply Permutation_in; [apply Permutation_sym|]; apply Permutation_map, S2. }
      assert (SC : StronglySorted (fun a b => lte b a) (map fst cs)) by (apply (ss_map (fun a b => lte b a) fst), S3).
      assert (NC : NoDup (map fst cs)) by (eapply Permutation_NoDup; [apply Permutation_map, S2|exact NH]).
      assert (CC : forall a, In a cs -> fst (snd a) = ow (fst a)) by (intros a A; apply Cd, IH, FC, A).
      assert (GS : NoDup (gone ++ map fst here) /\ (forall e, In e (gone ++ map fst here) <-> In e (map fst d) /\ doneH (y + 1) e = true)) by (apply gone_step; assumption).
      (* the rest of the step *)
      assert (FIN : forall s st' v', process_point p (counts_of (cs ++ vt_elem p v)) (incoming_of X is) elems st = Ok s -> 
        handle_hole X p (match ys with [] => None | (y', _) :: _ => Some y' end) (hd_error hi) s = Ok (st', v') -> v_next s v' st' ys -> Permutation (map key (p_elems s)) (newl (y + 1)) -> Permutation (T st') (map directed (doneE (y + 1))) ->
        exists v' elems' gone' st', column X d ((y, evs) :: ys) v elems gone st = column X d ys v' elems' gone' st' /\ cinv (y + 1) ys v' elems' gone' st').
      { intros s st' v' Q1 Q2 Q3 Q4 Q5. exists v', (p_elems s), (gone ++ map fst here), st'. split.
        - cbn [column]. assert (chk (y + 1) = Ok (y + 1)) as -> by (unfold chk, coord_fits, INT_MIN, INT_MAX in *; rewrite (proj2 (andb_true_iff _ _)) by lia; reflexivity). cbn [obind]. rewrite L2. cbn [obind]. rewrite L3, S1. cbn [obind]. rewrite I1. cbn [obind]. rewrite Q1. cbn [obind]. rewrite L4, Q2. reflexivity.
        - constructor.
          + apply vtx_next.
          + intros z ez Z. destruct (c_ys _ _ _ _ _ _ ci z ez (or_intror Z)) as [_ K]. split; [|exact K]. assert (y < z); [|lia]. apply next_gt. apply (in_map fst _ _ Z).
          + pose proof (c_srt _ _ _ _ _ _ ci) as S. unfold stops in S. cbn [map] in S. apply StronglySorted_inv in S. apply S.
          + exact Q4.
          + exact GS.
          + exact Q5.
          + exact Q3. }
      pose proof (c_t _ _ _ _ _ _ ci) as CT.
      (* a vertex where no hole is carried to *)
      assert (REG : forall odn, one_of r (v_dn X y) odn -> hl = [] -> counts_of (cs ++ vt_elem p v) = map (fun a => (snd a, false)) cs ++ vt_cent v -> map c_count (vt_cent v) = vlist r odn ->
        (forall q, (forall a, In a va -> q (snd a) = fst (fst a)) -> map (cact q) (vt_cent v) = va) -> map dira va = map (fun e => directed (e, ow e)) match odn with Some e => [e] | None => [] end -> (forall a, In a va -> fst (fst a) <> p) ->
        exists v' elems' gone' st', column X d ((y, evs) :: ys) v elems gone st = column X d ys v' elems' gone' st' /\ cinv (y + 1) ys v' elems' gone' st').
      { intros odn OD HL CO VC VA VD VP. subst hl. set (act := map ent cs ++ va). set (q := lk p act). set (oth := map ent (dleft (y + 1)) ++ map ent elems).
        assert (IV' : Inv st [] (act ++ oth)).
        { eapply Inv_perm; [exact IV|]. unfold act, oth. assert (P1 : Permutation (map ent (dleft lim)) (map ent here ++ map ent (dleft (y + 1)))) by (rewrite <- map_app; apply Permutation_map, PD). assert (P2 : Permutation (map ent here) (map ent cs)) by apply Permutation_map, S2. clear - P1 P2. pcount ae_dec. }
        assert (ND : NoDup (map snd act)) by (apply inv_nodup in IV'; rewrite map_app in IV'; apply (nodup_front _ _ IV')).
        assert (QA : forall a, In a act -> q (snd a) = fst (fst a)) by (intros a A; apply lk_ok; assumption).
        assert (CA : map (cact q) (map (fun a => (snd a, false)) cs ++ vt_cent v) = act).
        { rewrite map_app. unfold act. f_equal; [|apply VA; intros a A; apply QA; unfold act; apply in_or_app; right; exact A]. rewrite map_map. apply map_ext_in. intros a A. unfold cact, ent, c_count. cbn [fst snd]. f_equal. f_equal. apply (QA (ent a)). unfold act. apply in_or_app. left. apply in_map, A. }
        destruct (process_ok q p (counts_of (cs ++ vt_elem p v)) (incoming_of X is) elems st (Dal r X y =? 1) (Dbr r X y =? 1) oth) as [s [P1 P2]].
        - assert (CM : map c_count (counts_of (cs ++ vt_elem p v)) = map ow (map fst cs) ++ vlist r odn).
          { rewrite CO. etransitivity; [apply map_app|]. f_equal; [|exact VC]. rewrite !map_map. apply map_ext_in. intros a A. unfold c_count. cbn [fst]. apply CC, A. }
          rewrite CM. apply (out_steps r nd nod0 ge one clo dep X y vtx (map fst cs) odn SC MC OD).
        - rewrite I2, inc_counts. apply (in_steps r nd nod0 ge one clo dep X y vtx m o I3 I4 I5).
        - rewrite I2. apply inc_flag.
        - intros c C. rewrite CO in C. assert (K : In (cact q c) act) by (rewrite <- CA; apply in_map, C). replace (q (snd (fst c))) with (fst (fst (cact q c))) by reflexivity. unfold act in K. apply in_app_or in K as [K|K].
          + apply in_map_iff in K as [a [K A]]. rewrite <- K. cbn [ent fst]. destruct (FINE a (FC a A)) as [[_ F1] F2]. intros J. rewrite F2, J in F1. lia.
          + apply VP, K.
        - rewrite CO, CA. exact IV'.
        - assert (TT : Permutation (map (cdir q p) (counts_of (cs ++ vt_elem p v)) ++ T st) (map directed (doneE (y + 1)))).
          { rewrite CO. replace (map (cdir q p) (map (fun a => (snd a, false)) cs ++ vt_cent v)) with (map (fun e => directed (e, ow e)) (map fst cs ++ match odn with Some e => [e] | None => [] end)).
            - eapply Permutation_trans; [apply Permutation_app_head, CT|]. apply (t_step (map fst cs) odn NC MC OD).
            - rewrite map_app, <- VD. transitivity (map dira act); [unfold act; rewrite map_app; f_equal; rewrite !map_map; apply map_ext_in; intros a A; unfold dira, ent; cbn [fst snd]; rewrite (CC a A); symmetry; destruct (FINE a (FC a A)) as [[F0 F1] F2]; apply dir_nv; [exact F0|exact F2|unfold vertical_edge; lia]|].
              rewrite <- CA, map_map. reflexivity. }
          rewrite I2 in P2. destruct P2 as [P2|[Q1 [_ [Q2 [Q3 [t [hc [Q4 [Q5 [Q6 [Q7 Q8]]]]]]]]]]].
          + destruct (after_stage m o s oth _ (match ys with [] => None | (y', _) :: _ => Some y' end) (hd_error hi) NM I4 I5 P2 (Permutation_refl _)) as [v' [A1 [A2 [A3 A4]]]].
            apply (FIN s (p_st s) v'); try assumption. eapply Permutation_trans; [exact A4|exact TT].
          + assert (MO : m = [] /\ o = None) by (unfold inc_list in Q1; apply app_eq_nil in Q1 as [Q1 Q1']; split; [destruct m; [reflexivity|discriminate]|destruct o; [discriminate|reflexivity]]). destruct MO as [-> ->].
            assert (BE : forall e, In e E -> begins X y e = false) by (intros e He; apply not_true_iff_false; intros K; apply (proj2 (I4 e)); auto). assert (DA : Dal r X y = 1) by lia.
            destruct (after_hole s oth _ lo here hi t hc L1 L5 L6 L7 BE I5 DA Q4 Q3 Q5 Q6 Q7 Q8 (Permutation_refl _)) as [st' [v' [A1 [A2 [A3 A4]]]]].
            apply (FIN s st' v'); try assumption. eapply Permutation_trans; [exact A4|exact TT]. }
      assert (FCS : forall a, In a cs -> fine1 E a) by (intros a A; apply FINE, FC, A).
      assert (VV : v = None \/ exists q c t, v = Some (q, c, t)) by (destruct v as [[[q c] t]|]; [right; exists q, c, t; reflexivity|left; reflexivity]).
      destruct VV as [QV|[q [c [t QV]]]]; rewrite QV in DN, VS.
      { destruct VS as [-> [-> _]]. apply (REG None DN eq_refl).
        - apply counts_vt; [exact FCS|]. rewrite QV. exact I.
        - rewrite QV. reflexivity.
        - intros q _. rewrite QV. reflexivity.
        - reflexivity.
        - intros a []. }
      destruct DN as [DX [[e [D1 [D2 [D3 [D4 [D5 [D6 D7]]]]]]]|[D1 [D2 [[hc [D3 D3']] [D4 [D5 D6]]]]]]].
      - pose proof D1 as [DE1 [DE2 _]]. assert (DV : vertical_edge e = true) by (unfold v_dn in DE2; apply andb_true_iff in DE2; apply DE2). apply (REG (Some e) D1 D6).
        + apply counts_vt; [exact FCS|]. rewrite QV. exact DX.
        + rewrite QV. cbn [vt_cent map vlist]. unfold c_count. cbn [fst]. rewrite D5. reflexivity.
        + intros q' H. rewrite QV, D7. cbn [vt_cent map]. unfold cact, c_count. cbn [fst snd]. rewrite D7 in H. specialize (H _ (or_introl eq_refl)). cbn [fst snd] in H. rewrite H. reflexivity.
        + rewrite D7. cbn [map]. f_equal. unfold dira. cbn [fst snd]. rewrite D5, <- D2. apply dir_v; assumption.
        + rewrite D7. intros a [<-|[]]. cbn [fst]. intros K. rewrite K in D4. cbn [py] in D4. lia.
      - (* a hole is carried to the vertex *)
        subst hl va c. assert (here = []) as HE. { destruct here as [|a h]; [reflexivity|]. assert (K : In (fst a) E /\ finishes X y (fst a) = true) by (apply FH; left; reflexivity). rewrite (D5 _ (proj1 K)) in K. destruct K as [_ K]. discriminate. }
        assert (cs = []) as CE by (rewrite HE in S2; apply Permutation_nil in S2; exact S2).
        set (oth := map ent (dleft (y + 1)) ++ map ent elems).
        assert (IV' : Inv st [hc] oth). { eapply Inv_perm; [exact IV|]. unfold oth. rewrite app_nil_r. apply Permutation_app_tail, Permutation_map. rewrite HE in PD. exact PD. }
        assert (WF : wsum r (finishes X y) = 0) by apply (wsum_one r nd (finishes X y) None D5).
        assert (WD : wsum r (v_dn X y) = 0) by apply (wsum_one r nd (v_dn X y) None D6).
        assert (DA : Dal r X y = 1) by (unfold Dal; lia). assert (DB : Dbr r X y = 1) by (rewrite (br_bl r nod0 ge clo X y vtx); lia).
        destruct (process_hole p t hc (incoming_of X is) elems st oth) as [s [P1 P2]].
        + rewrite I2, inc_counts. pose proof (in_steps r nd nod0 ge one clo dep X y vtx m o I3 I4 I5) as AL. rewrite DA, DB in AL. exact AL.
        + rewrite I2. intros K. unfold inc_list in K. apply app_eq_nil in K as [K1 K2]. assert (m = []) as ME by (destruct m; [reflexivity|discriminate]). assert (o = None) as OE by (destruct o; [discriminate|reflexivity]). subst m o.
          destruct vtx as [e [V1 [V2|V2]]]; destruct (vertical_edge e) eqn:VE.
          * specialize (I5 e V1). unfold v_up in I5. rewrite (proj2 (eq_pt_iff _ _) V2), VE in I5. discriminate.
          * apply (proj2 (I4 e)). split; [exact V1|]. unfold begins, nvb. rewrite (proj2 (eq_pt_iff _ _) V2), VE. reflexivity.
          * specialize (D6 e V1). unfold v_dn in D6. rewrite (proj2 (eq_pt_iff _ _) V2), VE in D6. discriminate.
          * specialize (D5 e V1). unfold finishes, nvb in D5. rewrite (proj2 (eq_pt_iff _ _) V2), VE in D5. discriminate.
        + rewrite I2. apply inc_flag.
        + exact D3'.
        + exact IV'.
        + rewrite I2 in P2. destruct (after_stage m o s oth _ (match ys with [] => None | (y', _) :: _ => Some y' end) (hd_error hi) NM I4 I5 P2 (Permutation_refl _)) as [v' [A1 [A2 [A3 A4]]]].
          apply (FIN s (p_st s) v'); try assumption.
          * rewrite CE, QV. cbn [app vt_elem]. unfold counts_of. cbn [mark_last fst snd]. unfold sb_vertical. cbn [s_low s_high px]. rewrite DX, Z.eqb_refl. exact P1.
          * eapply Permutation_trans; [exact A4|]. eapply Permutation_trans; [exact CT|]. pose proof (t_step (map fst cs) None NC MC D6) as TS. rewrite CE in TS. exact TS.
    Qed.
  End step.
End col.
