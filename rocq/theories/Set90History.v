(* Histories of operations on polygon sets: simulation by the abstract machines. *)
From Verif Require Import Base Scan90Spec BoolOpModel VertexLemmas BoolOpProofs IsoSpec IsoModel IsoProofs
  Set90Spec Set90Model Set90Lemmas Set90Proofs Poly90Vertices.

Definition rel1 (s : pset) (a : orient * winding) : Prop :=
  ps_ok s /\ ps_orient s = fst a /\ forall x y, wind (ps_orient s) (ps_data s) x y = snd a x y.
Definition rel (st : store) (ast : astate) : Prop := forall i, rel1 (st i) (ast i).

Lemma rel_upd st ast i s a : rel st ast -> rel1 s a -> rel (upd st i s) (aset ast i a).
Proof. intros H H1 j. unfold upd, aset. destruct (Nat.eqb j i); [exact H1|apply H]. Qed.

Lemma rel_start : rel start astart.
Proof.
  intros i. split; [apply ps_new_ok|]. split; [reflexivity|]. intros x y. apply wind_nil.
Qed.

Lemma rel1_clean s a s' : rel1 s a -> ps_clean s = Some s' -> rel1 s' (fst a, positive_part (snd a)).
Proof.
  intros [H1 [H2 H3]] E. destruct (ps_clean_spec s H1) as [s2 [K1 [K2 [K3 [_ [_ [_ K7]]]]]]].
  rewrite K1 in E. injection E as <-. split; [exact K2|]. cbn [fst snd]. split; [congruence|].
  intros x y. rewrite K3. rewrite (wind_map _ _ _ (fun c => b2z (c >? 0)) x y K7), H3. reflexivity.
Qed.

Lemma rel1_sort s a : rel1 s a -> rel1 (ps_sort s) a.
Proof.
  intros [H1 [H2 H3]]. destruct (ps_sort_spec s H1) as [O [E1 [_ [_ [P _]]]]].
  split; [exact O|]. rewrite E1. split; [exact H2|]. intros x y.
  rewrite (wind_cnt _ _ _ x y (cnt_perm _ _ P)). apply H3.
Qed.
Lemma rel_upd_same st ast i s : rel st ast -> rel1 s (ast i) -> rel (upd st i s) ast.
Proof. intros H H1 j. unfold upd. destruct (Nat.eqb_spec j i) as [->|_]; [exact H1|apply H]. Qed.

Lemma step_spec st ast o : rel st ast -> op_ok o ->
  match step st o with
  | Ok (st', out) => exists ast', aeffect ast o ast' /\ aanswers ast o out /\ rel st' ast'
  | Overflow => True
  | Undefined => False
  end.
Proof.
  intros H Hop. destruct o as [i o|i j|i|i r hole|i p hole|i j|k f i j|i f j|i dx dy|i t|i k|i|i|i|i|i j|i j|i];
    cbn [step op_ok] in *.
  - eexists. split; [reflexivity|]. split; [reflexivity|]. apply rel_upd; [exact H|].
    split; [apply ps_new_ok|]. split; [reflexivity|]. intros x y. apply wind_nil.
  - eexists. split; [reflexivity|]. split; [reflexivity|]. apply rel_upd; [exact H|apply H].
  - eexists. split; [reflexivity|]. split; [reflexivity|]. apply rel_upd; [exact H|].
    destruct (H i) as [H1 [H2 H3]].
    split; [apply ps_clear_ok|]. split; [exact H2|]. intros x y. apply wind_nil.
  - eexists. split; [reflexivity|]. split; [reflexivity|]. apply rel_upd; [exact H|].
    destruct (H i) as [H1 [H2 H3]]. destruct Hop as [Hr [I1 [I2 [I3 I4]]]].
    destruct (ps_insert_rect_spec (st i) r hole H1 Hr I1 I2 I3 I4) as [A [B C]].
    split; [exact A|]. split; [cbn [fst]; congruence|]. intros x y. rewrite B, C, H3. reflexivity.
  - destruct (H i) as [H1 [H2 H3]]. pose proof (ps_insert_poly_spec (st i) p hole H1 Hop) as K.
    destruct (ps_insert_poly (st i) p hole) as [s| |]; cbn [obind]; try exact K.
    destruct K as [K1 [K2 K3]]. eexists. split; [reflexivity|]. split; [reflexivity|].
    apply rel_upd; [exact H|]. split; [exact K1|]. split; [cbn [fst]; congruence|].
    intros x y. rewrite K2, K3, H3. reflexivity.
  - eexists. split; [reflexivity|]. split; [reflexivity|]. unfold ps_insert_set.
    destruct (Nat.eqb_spec i j) as [E|E].
    + intros k. unfold upd. destruct (Nat.eqb_spec k i) as [->|_]; apply H.
    + apply rel_upd; [exact H|]. destruct (H i) as [H1 [H2 H3]]. destruct (H j) as [G1 [G2 G3]].
      destruct (ps_insert_range_spec (st i) (ps_data (st j)) (ps_orient (st j)) H1 (ok_closed _ G1) (ok_int _ G1))
        as [A [B [C _]]].
      split; [exact A|]. split; [cbn [fst]; congruence|]. intros x y. rewrite B, C, H3, G3. reflexivity.
  - destruct (H i) as [H1 [H2 H3]]. destruct (H j) as [G1 [G2 G3]].
    destruct (ps_assign_view_spec f _ _ H1 G1) as [s [K1 [K2 [K3 [_ [_ [_ K]]]]]]].
    rewrite K1. cbn [lift obind]. eexists. split; [reflexivity|]. split; [reflexivity|].
    apply rel_upd.
    + apply rel_upd_same; [apply rel_upd_same; [exact H|apply rel1_sort; apply H]|].
      unfold view_right_after. destruct (orient_eqb _ _); [apply rel1_sort|]; apply H.
    + split; [exact K2|]. split; [cbn [fst]; congruence|].
      intros x y. rewrite K3, K, H3, G3. reflexivity.
  - destruct (H i) as [H1 [H2 H3]]. destruct (H j) as [G1 [G2 G3]].
    destruct (ps_bin_assign_spec f _ _ H1 G1) as [s [K1 [K2 [K3 K]]]].
    rewrite K1. cbn [lift obind]. eexists. split; [reflexivity|]. split; [reflexivity|].
    apply rel_upd; [exact H|]. split; [exact K2|]. split; [cbn [fst]; congruence|].
    intros x y. rewrite K3, K, H3, G3. reflexivity.
  - destruct (H i) as [H1 [H2 H3]]. pose proof (ps_move_spec dx dy _ H1) as K.
    destruct (ps_move dx dy (st i)) as [s| |]; cbn [obind]; try exact K.
    destruct K as [K1 [K2 K3]]. eexists. split; [reflexivity|]. split; [reflexivity|].
    apply rel_upd; [exact H|]. split; [exact K1|]. split; [cbn [fst]; congruence|].
    intros x y. rewrite K2, K3, H3. reflexivity.
  - destruct (H i) as [H1 [H2 H3]]. pose proof (ps_transform_spec t _ Hop H1) as K.
    destruct (ps_transform t (st i)) as [s| |]; cbn [obind]; try exact K.
    destruct K as [K1 [K2 K3]].
    exists (aset ast i (fst (ast i), fun x y => snd (ast i) (fst (iso_cell t (x, y))) (snd (iso_cell t (x, y))))).
    split; [|split; [reflexivity|]].
    + eexists. split; [reflexivity|]. intros c d Hcd. apply maps_cell_iso in Hcd; [|exact Hop].
      rewrite Hcd. destruct d. reflexivity.
    + apply rel_upd; [exact H|]. split; [exact K1|]. split; [cbn [fst]; congruence|].
      intros x y. rewrite K2, K3, H3. reflexivity.
  - destruct (H i) as [H1 [H2 H3]]. pose proof (ps_scale_up_spec k _ (proj1 Hop) H1) as K.
    destruct (ps_scale_up k (st i)) as [s| |]; cbn [obind]; try exact K.
    destruct K as [K1 [K2 K3]]. eexists. split; [reflexivity|]. split; [reflexivity|].
    apply rel_upd; [exact H|]. split; [exact K1|]. split; [cbn [fst]; congruence|].
    intros x y. rewrite K2, K3, H3. reflexivity.
  - destruct (H i) as [H1 [H2 H3]]. destruct (ps_self_xor_spec _ H1) as [s [K1 [K2 [K3 [_ K]]]]].
    rewrite K1. cbn [lift obind]. eexists. split; [reflexivity|]. split; [reflexivity|].
    apply rel_upd; [exact H|]. split; [exact K2|]. split; [cbn [fst]; congruence|].
    intros x y. rewrite K3, (wind_map _ _ _ (fun c => b2z ((c >? 0) && Z.odd c)) x y K), H3. reflexivity.
  - destruct (H i) as [H1 [H2 H3]]. destruct (ps_self_intersect_spec _ H1) as [s [K1 [K2 [K3 [_ K]]]]].
    rewrite K1. cbn [lift obind]. destruct (ps_dirty (st i)) eqn:D.
    + eexists. split; [left; reflexivity|]. split; [reflexivity|]. apply rel_upd; [exact H|].
      split; [exact K2|]. split; [cbn [fst]; congruence|]. intros x y. rewrite K3, K, H3. reflexivity.
    + exists ast. split; [right; split; [reflexivity|]|split; [reflexivity|]].
      * intros x y. rewrite <- H3. destruct (ok_clean _ H1 D) as [_ I01].
        destruct (ps_orient (st i)); cbn [wind]; apply I01.
      * apply rel_upd_same; [exact H|]. split; [exact K2|]. split; [congruence|].
        intros x y. rewrite K3, K, H3. reflexivity.
  - destruct (H i) as [H1 [H2 H3]]. destruct (ps_clean_spec _ H1) as [s [K1 _]].
    rewrite K1. cbn [lift obind]. eexists. split; [reflexivity|]. split; [reflexivity|].
    apply rel_upd; [exact H|]. eapply rel1_clean; [apply H|exact K1].
  - destruct (H i) as [H1 [H2 H3]]. destruct (ps_empty_spec _ H1) as [b [s [K1 [K2 K3]]]].
    rewrite K1. cbn [lift obind]. eexists. split; [reflexivity|]. split.
    + exists b. split; [reflexivity|]. rewrite K3. unfold covered.
      split; intros G x y; specialize (G x y); rewrite H3 in *; exact G.
    + apply rel_upd; [exact H|]. eapply rel1_clean; [apply H|exact K2].
  - destruct (H i) as [H1 [H2 H3]]. destruct (H j) as [G1 [G2 G3]].
    rewrite H2, G2 in *. destruct (orient_eqb_spec (fst (ast i)) (fst (ast j))) as [E|E].
    + destruct (ps_eq_spec _ _ H1 G1 ltac:(congruence)) as [b [s [t [K1 [K2 [K3 K4]]]]]].
      rewrite K1. cbn [lift obind].
      exists (anorm (anorm ast i) j). split; [|split].
      * cbn [aeffect]. rewrite E, orient_eqb_refl. reflexivity.
      * exists b. split; [reflexivity|]. rewrite K4, H2, G2. unfold covered.
        split; [intros G; split; [exact E|]|intros [_ G]]; intros x y; specialize (G x y);
          rewrite H3, G3 in *; exact G.
      * apply rel_upd.
        -- apply rel_upd; [exact H|]. eapply rel1_clean; [apply H|exact K2].
        -- unfold anorm, aset. destruct (Nat.eqb_spec j i) as [->|_]; cbn [fst snd].
           ++ destruct (rel1_clean _ _ _ (H i) K3) as [L1 [L2 L3]]. split; [exact L1|]. split; [exact L2|].
              intros x y. rewrite L3. cbn [snd]. unfold positive_part. rewrite b2z_gtb. reflexivity.
           ++ eapply rel1_clean; [apply H|exact K3].
    + assert (Eps : ps_eq (st i) (st j) = Some (false, (st i, st j))).
      { unfold ps_eq. destruct (orient_eqb_spec (ps_orient (st i)) (ps_orient (st j))) as [E'|_]; [congruence|reflexivity]. }
      rewrite Eps. cbn [lift obind]. exists ast. split; [|split].
      * cbn [aeffect]. destruct (orient_eqb_spec (fst (ast i)) (fst (ast j))); [contradiction|reflexivity].
      * exists false. split; [reflexivity|]. split; [discriminate|]. intros [E' _]. contradiction.
      * intros k. unfold upd. destruct (Nat.eqb_spec k j) as [->|_]; [apply H|].
        destruct (Nat.eqb_spec k i) as [->|_]; apply H.
  - destruct (H i) as [H1 [H2 H3]]. destruct (H j) as [G1 [G2 G3]].
    destruct (ps_equivalence_spec _ _ H1 G1) as [b [K1 K2]]. rewrite K1. cbn [lift obind].
    exists ast. split; [reflexivity|]. split; [|exact H]. exists b. split; [reflexivity|]. rewrite K2.
    unfold covered. split; intros G x y; specialize (G x y); rewrite H3, G3 in *; exact G.
  - destruct (H i) as [H1 [H2 H3]]. destruct (ps_extents_spec _ H1) as [o [s [K1 [K2 K3]]]].
    rewrite K1. cbn [lift obind]. eexists. split; [reflexivity|]. split.
    + destruct o as [r|].
      * right. exists r. split; [reflexivity|].
        destruct K3 as [B0 [[b1 B1] [[b2 B2] [[b3 B3] [b4 B4]]]]]. rewrite H3 in B1, B2, B3, B4.
        unfold covered. split; [intros x y Hc; apply B0; rewrite H3; exact Hc|]. eauto 10.
      * left. split; [reflexivity|]. unfold covered. intros x y. rewrite <- H3. apply K3.
    + apply rel_upd; [exact H|]. eapply rel1_clean; [apply H|exact K2].
Qed.

Lemma run_spec ops : forall st ast, rel st ast -> Forall op_ok ops ->
  match run st ops with
  | Ok (st', outs) => exists ast', aruns ast ops ast' outs /\ rel st' ast'
  | Overflow => True
  | Undefined => False
  end.
Proof.
  induction ops as [|o ops IH]; intros st ast H Hok; cbn [run].
  - exists ast. split; [|exact H]. constructor. intros i. split; reflexivity.
  - inversion Hok as [|? ? Ho Hops]; subst. pose proof (step_spec st ast o H Ho) as S.
    destruct (step st o) as [[st1 out]| |]; cbn [obind]; try exact S.
    destruct S as [ast1 [E [A R]]]. specialize (IH st1 ast1 R Hops).
    destruct (run st1 ops) as [[st2 outs]| |]; cbn [obind]; try exact IH.
    destruct IH as [ast2 [E2 R2]]. exists ast2. split; [|exact R2]. econstructor; eassumption.
Qed.

(* ---------- hole-free histories ---------- *)
Definition rrel (ast : astate) (rst : rstate) : Prop :=
  forall i, fst (ast i) = fst (rst i) /\
    forall x y, 0 <= snd (ast i) x y /\ (0 < snd (ast i) x y <-> snd (rst i) x y).

Lemma rrel_set ast rst i a r : rrel ast rst ->
  (fst a = fst r /\ forall x y, 0 <= snd a x y /\ (0 < snd a x y <-> snd r x y)) ->
  rrel (aset ast i a) (rset rst i r).
Proof. intros H H1 j. unfold aset, rset. destruct (Nat.eqb j i); [exact H1|apply H]. Qed.
Lemma rrel_norm ast rst i : rrel ast rst -> rrel (anorm ast i) rst.
Proof.
  intros H j. unfold anorm, aset. destruct (Nat.eqb_spec j i) as [->|_]; [|apply H].
  destruct (H i) as [E W]. split; [exact E|]. intros x y. cbn [snd]. unfold positive_part.
  destruct (W x y) as [W1 W2]. rewrite <- W2.
  destruct (Z.gtb_spec (snd (ast i) x y) 0); cbn [b2z]; lia.
Qed.
Lemma bop_b2z f a b A B : (0 < a <-> A) -> (0 < b <-> B) ->
  0 <= b2z (bop_fun f (a >? 0) (b >? 0)) /\ (0 < b2z (bop_fun f (a >? 0) (b >? 0)) <-> bop_prop f A B).
Proof.
  intros HA HB. destruct (Z.gtb_spec a 0), (Z.gtb_spec b 0), f; cbn [bop_fun bop_prop orb andb xorb negb b2z];
    rewrite <- HA, <- HB; lia.
Qed.

Lemma region_step ast o ast' out rst : rrel ast rst -> op_ok o -> hole_free o ->
  aeffect ast o ast' -> aanswers ast o out ->
  exists rst', reffect rst o rst' /\ ranswers rst o out /\ rrel ast' rst'.
Proof.
  intros H Hop Hh He Ha.
  destruct o as [i o|i j|i|i r hole|i p hole|i j|k f i j|i f j|i dx dy|i t|i k|i|i|i|i|i j|i j|i];
    cbn [op_ok hole_free aeffect aanswers reffect ranswers] in *.
  - subst ast'. eexists. split; [reflexivity|]. split; [exact Ha|]. apply rrel_set; [exact H|].
    split; [reflexivity|]. intros x y. cbn [snd]. lia.
  - subst ast'. eexists. split; [reflexivity|]. split; [exact Ha|]. apply rrel_set; [exact H|apply H].
  - subst ast'. eexists. split; [reflexivity|]. split; [exact Ha|]. apply rrel_set; [exact H|].
    split; [apply H|]. intros x y. cbn [snd]. lia.
  - subst ast' hole. eexists. split; [reflexivity|]. split; [exact Ha|]. apply rrel_set; [exact H|].
    split; [apply H|]. intros x y. cbn [snd]. destruct (proj2 (H i) x y) as [W1 W2]. rewrite <- W2.
    destruct (in_rect r x y).
    + split; [lia|]. split; [intros _; right; reflexivity|lia].
    + split; [lia|]. split; [intros L; left; lia|intros [L|L]; [lia|discriminate]].
  - subst ast'. destruct Hh as [-> Hh]. eexists. split; [reflexivity|]. split; [exact Ha|]. apply rrel_set; [exact H|].
    split; [apply H|]. intros x y. cbn [snd]. destruct (proj2 (H i) x y) as [W1 W2]. rewrite <- W2.
    specialize (Hh x y). lia.
  - subst ast'. eexists. split; [reflexivity|]. split; [exact Ha|].
    destruct (Nat.eqb_spec i j) as [->|E].
    + intros k. unfold rset. destruct (Nat.eqb_spec k j) as [->|_]; [|apply H].
      split; [apply H|]. cbn [snd]. intros x y. destruct (proj2 (H j) x y) as [W1 W2]. tauto.
    + apply rrel_set; [exact H|]. split; [apply H|]. intros x y. cbn [snd].
      destruct (proj2 (H i) x y) as [W1 W2], (proj2 (H j) x y) as [X1 X2]. rewrite <- W2, <- X2. lia.
  - subst ast'. eexists. split; [reflexivity|]. split; [exact Ha|]. apply rrel_set; [exact H|].
    split; [apply H|]. intros x y. cbn [snd]. apply bop_b2z; apply H.
  - subst ast'. eexists. split; [reflexivity|]. split; [exact Ha|]. apply rrel_set; [exact H|].
    split; [apply H|]. intros x y. cbn [snd]. apply bop_b2z; apply H.
  - subst ast'. eexists. split; [reflexivity|]. split; [exact Ha|]. apply rrel_set; [exact H|].
    split; [apply H|]. intros x y. cbn [snd]. apply H.
  - destruct He as [w [-> Hw]]. eexists. split; [reflexivity|]. split; [exact Ha|]. apply rrel_set; [exact H|].
    split; [apply H|]. intros x y. cbn [snd].
    pose proof (proj2 (maps_cell_iso t (iso_cell t (x, y)) (x, y) Hop) eq_refl) as M.
    pose proof (Hw _ _ M) as W. cbn [fst snd] in W. rewrite W.
    destruct (proj2 (H i) (fst (iso_cell t (x, y))) (snd (iso_cell t (x, y)))) as [W1 W2].
    split; [exact W1|]. rewrite W2. split.
    + intros G. eexists. split; [exact M|exact G].
    + intros [c [Mc G]]. apply maps_cell_iso in Mc; [|exact Hop]. subst c. exact G.
  - subst ast'. eexists. split; [reflexivity|]. split; [exact Ha|]. apply rrel_set; [exact H|].
    split; [apply H|]. intros x y. cbn [snd]. apply H.
  - contradiction.
  - contradiction.
  - subst ast'. eexists. split; [reflexivity|]. split; [exact Ha|]. apply rrel_norm. exact H.
  - subst ast'. eexists. split; [reflexivity|]. split; [|apply rrel_norm; exact H].
    destruct Ha as [b [-> Hb]]. exists b. split; [reflexivity|]. rewrite Hb. unfold covered.
    split; intros G x y C; apply (G x y); apply (H i); exact C.
  - eexists. split; [reflexivity|]. split.
    + destruct Ha as [b [-> Hb]]. exists b. split; [reflexivity|]. rewrite Hb. unfold covered.
      rewrite (proj1 (H i)), (proj1 (H j)).
      split; intros [G1 G2]; (split; [exact G1|]); intros x y; specialize (G2 x y);
        pose proof (proj2 (proj2 (H i) x y)); pose proof (proj2 (proj2 (H j) x y)); tauto.
    + subst ast'. destruct (orient_eqb _ _); [apply rrel_norm, rrel_norm|]; exact H.
  - subst ast'. eexists. split; [reflexivity|]. split; [|exact H].
    destruct Ha as [b [-> Hb]]. exists b. split; [reflexivity|]. rewrite Hb. unfold covered.
    split; intros G x y; specialize (G x y);
      pose proof (proj2 (proj2 (H i) x y)); pose proof (proj2 (proj2 (H j) x y)); tauto.
  - subst ast'. eexists. split; [reflexivity|]. split; [|apply rrel_norm; exact H].
    destruct Ha as [[-> G]|[r [-> G]]].
    + left. split; [reflexivity|]. intros x y C. apply (G x y). apply (H i). exact C.
    + right. exists r. split; [reflexivity|]. destruct G as [B0 [[b1 B1] [[b2 B2] [[b3 B3] [b4 B4]]]]].
      unfold covered in *. split; [intros x y C; apply B0; apply (H i); exact C|].
      split; [exists b1|split; [exists b2|split; [exists b3|exists b4]]]; apply (H i); assumption.
Qed.

Lemma region_runs ops : forall ast ast' outs rst, rrel ast rst -> Forall op_ok ops -> Forall hole_free ops ->
  aruns ast ops ast' outs -> exists rst', rruns rst ops rst' outs /\ rrel ast' rst'.
Proof.
  induction ops as [|o ops IH]; intros ast ast' outs rst H Hok Hh Hr.
  - inversion Hr as [? ? Heq|]; subst.
    exists rst. split; [constructor; intros i; split; reflexivity|].
    intros i. destruct (H i) as [E W]. destruct (Heq i) as [E' W'].
    split; [congruence|]. intros x y. rewrite <- W'. apply W.
  - inversion Hr as [|? ? ? ast1 ? out outs' He Ha Hr']; subst.
    inversion Hok as [|? ? Ho Hops]; subst. inversion Hh as [|? ? Hf Hfs]; subst.
    destruct (region_step _ _ _ _ rst H Ho Hf He Ha) as [rst1 [E1 [A1 R1]]].
    destruct (IH _ _ _ _ R1 Hops Hfs Hr') as [rst2 [E2 R2]].
    exists rst2. split; [|exact R2]. econstructor; eassumption.
Qed.

Lemma run_region_spec ops : Forall op_ok ops -> Forall hole_free ops ->
  match run start ops with
  | Ok (st', outs) => exists rst', rruns rstart ops rst' outs /\
      forall i, ps_orient (st' i) = fst (rst' i) /\
        forall x y, 0 <= wind (ps_orient (st' i)) (ps_data (st' i)) x y /\
          (0 < wind (ps_orient (st' i)) (ps_data (st' i)) x y <-> snd (rst' i) x y)
  | Overflow => True
  | Undefined => False
  end.
Proof.
  intros Hok Hh. pose proof (run_spec ops start astart rel_start Hok) as R.
  destruct (run start ops) as [[st' outs]| |]; try exact R.
  destruct R as [ast' [R1 R2]].
  assert (H0 : rrel astart rstart).
  { intros i. split; [reflexivity|]. intros x y. cbn [astart rstart snd]. lia. }
  destruct (region_runs _ _ _ _ _ H0 Hok Hh R1) as [rst' [Q1 Q2]].
  exists rst'. split; [exact Q1|]. intros i. destruct (R2 i) as [_ [E W]]. destruct (Q2 i) as [E' W'].
  split; [congruence|]. intros x y. rewrite W. apply W'.
Qed.
