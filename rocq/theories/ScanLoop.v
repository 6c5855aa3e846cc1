(* The scan over a sorted stream of events with counts in T, and its meaning. *)
From Verif Require Import Base Scan90Spec BoolOpModel ScanMap ScanProcess ScanStep VertexLemmas.

Section Loop.
Context {T : Type} (ops : count_ops T) (L : count_laws ops).
Notation null := (t_null ops).
Notation add := (t_add ops).

Definition tev : Type := (Z * Z * T)%type.
Definition ex (e : tev) : Z := fst (fst e).
Definition ey (e : tev) : Z := snd (fst e).
Definition ec (e : tev) : T := snd e.

(* sum of the counts of the events whose position satisfies p *)
Fixpoint tsum (p : Z -> Z -> bool) (E : list tev) : T :=
  match E with
  | [] => null
  | e :: E' => add (if p (ex e) (ey e) then ec e else null) (tsum p E')
  end.

Lemma add_null_r a : add a null = a.
Proof. rewrite (cl_comm ops L). apply (cl_null ops L). Qed.

Lemma tsum_app p E F : tsum p (E ++ F) = add (tsum p E) (tsum p F).
Proof.
  induction E as [|e E IH]; cbn [app tsum].
  - symmetry. apply (cl_null ops L).
  - rewrite IH. apply (cl_assoc ops L).
Qed.

Lemma tsum_snoc p E e : tsum p (E ++ [e]) = add (tsum p E) (if p (ex e) (ey e) then ec e else null).
Proof. rewrite tsum_app. cbn [tsum]. rewrite add_null_r. reflexivity. Qed.

Lemma tsum_ext p q E : Forall (fun e => p (ex e) (ey e) = q (ex e) (ey e)) E -> tsum p E = tsum q E.
Proof.
  induction E as [|e E IH]; intros H; cbn [tsum]; [reflexivity|].
  inversion H as [|? ? H1 H2]; subst. rewrite H1, (IH H2). reflexivity.
Qed.

Lemma tsum_none p E : Forall (fun e => p (ex e) (ey e) = false) E -> tsum p E = null.
Proof.
  induction E as [|e E IH]; intros H; cbn [tsum]; [reflexivity|].
  inversion H as [|? ? H1 H2]; subst. rewrite H1, (IH H2). apply (cl_null ops L).
Qed.

Lemma tsum_split p q E :
  tsum p E = add (tsum (fun a b => p a b && q a b) E) (tsum (fun a b => p a b && negb (q a b)) E).
Proof.
  induction E as [|e E IH]; cbn [tsum]; [symmetry; apply (cl_null ops L)|].
  rewrite IH. destruct (p (ex e) (ey e)), (q (ex e) (ey e)); cbn [andb negb];
    rewrite ?(cl_null ops L); try reflexivity.
  - rewrite (cl_assoc ops L). reflexivity.
  - rewrite !(cl_assoc ops L). f_equal. apply (cl_comm ops L).
Qed.

Definition tcnt (E : list tev) (x y : Z) : T := tsum (fun a b => (a <=? x) && (b <=? y)) E.

(* ---------- the step ---------- *)
Record gs : Type := mk_gs { g_x : Z; g_y : Z; g_c : T; g_bo : bo_state T; g_rout : list vertex }.

Definition gen_step (s : gs) (e : tev) : option gs :=
  if negb (g_x s =? ex e) then
    Some (mk_gs (ex e) (ey e) (ec e) (advanceScan (g_bo s)) (g_rout s))
  else
    do '(bo, rout) <-
      (if negb (ey e =? g_y s) && negb (t_eqb ops (g_c s) null) then
         do '(bo, container) <- processInterval ops (g_bo s) (g_y s) (ey e) (g_c s);
         Some (bo, emit (g_x s) (g_rout s) container)
       else Some (g_bo s, g_rout s));
    Some (mk_gs (g_x s) (ey e) (add (g_c s) (ec e)) bo rout).

Fixpoint gen_loop (s : gs) (E : list tev) : option gs :=
  match E with
  | [] => Some s
  | e :: E' => do s' <- gen_step s e; gen_loop s' E'
  end.

(* ---------- output ---------- *)
Definition rcanon (rout : list vertex) : Prop :=
  Forall unit_count rout /\ StronglySorted (fun a b => canon_le b a) rout.

Definition rout_ok (rout : list vertex) (X Y : Z) : Prop :=
  rcanon rout /\
  (match rout with [] => True | v :: r => Forall (fun w => pos_lt w v) r end) /\
  Forall (fun w => vx w < X \/ (vx w = X /\ vy w <= Y)) rout.

Lemma emit_edge_ok X rout Y l h v :
  rout_ok rout X Y -> Y <= l -> l < h -> (v = 1 \/ v = -1) ->
  rout_ok (emit_edge X rout ((l, h), v)) X h /\
  forall x y, cnt (emit_edge X rout ((l, h), v)) x y
    = cnt rout x y + (if X <=? x then if (l <=? y) && (y <? h) then v else 0 else 0).
Proof.
  intros [[Hu Hs] [Hh Hp]] HYl Hlh Hv. unfold emit_edge.
  assert (Hpush : forall b, b = (X, (l, v)) -> (match rout with [] => True | (bx, (by_, bc)) :: _ =>
      ~ (bx = X /\ by_ = l /\ bc = v * -1) end) ->
    rout_ok ((X, (h, v * -1)) :: b :: rout) X h /\
    forall x y, cnt ((X, (h, v * -1)) :: b :: rout) x y
      = cnt rout x y + (if X <=? x then if (l <=? y) && (y <? h) then v else 0 else 0)).
  { intros b Eb Hn. subst b. split.
    - repeat split.
      + constructor; [unfold unit_count, vc; cbn [snd]; lia|].
        constructor; [unfold unit_count, vc; cbn [snd]; lia|exact Hu].
      + assert (Hlast : Forall (fun w => canon_le w (X, (l, v))) rout).
        { destruct rout as [|[bx [by_ bc]] r]; [constructor|].
          inversion Hp as [|? ? P1 P2]; subst. inversion Hu as [|? ? U1 U2]; subst.
          assert (Hhd : pos_lt (bx, (by_, bc)) (X, (l, v)) \/
                        (bx = X /\ by_ = l /\ bc = v)).
          { unfold pos_lt, vx, vy, vc, unit_count in *. cbn [fst snd] in *.
            destruct (Z.eq_dec bx X) as [E1|E1]; [|left; left; lia].
            destruct (Z.eq_dec by_ l) as [E2|E2]; [|left; right; lia].
            right. repeat split; try assumption. unfold vc in U1. cbn [snd] in U1. lia. }
          constructor.
          - destruct Hhd as [Hhd|[E1 [E2 E3]]]; [left; exact Hhd|right].
            unfold vx, vy, vc. cbn [fst snd]. lia.
          - eapply Forall_impl; [|exact Hh]. intros w Hw. left.
            unfold pos_lt, vx, vy, vc in *. cbn [fst snd] in *. lia. }
        constructor.
        * constructor; assumption.
        * constructor.
          -- left. unfold pos_lt, vx, vy. cbn [fst snd]. lia.
          -- eapply Forall_impl; [|exact Hp]. intros w Hw. left.
             unfold pos_lt, vx, vy in *. cbn [fst snd] in *. lia.
      + constructor.
        * unfold pos_lt, vx, vy. cbn [fst snd]. lia.
        * eapply Forall_impl; [|exact Hp]. intros w Hw.
          unfold pos_lt, vx, vy in *. cbn [fst snd] in *. lia.
      + constructor; [unfold vx, vy; cbn [fst snd]; lia|].
        constructor; [unfold vx, vy; cbn [fst snd]; lia|].
        eapply Forall_impl; [|exact Hp]. intros w Hw. cbn beta in *. lia.
    - intros x y. cbn [cnt]. unfold vx, vy, vc. cbn [fst snd].
      destruct (Z.leb_spec X x), (Z.leb_spec l y), (Z.leb_spec h y), (Z.ltb_spec y h);
        cbn [andb]; lia. }
  destruct rout as [|[bx [by_ bc]] r].
  - apply Hpush; [reflexivity|exact I].
  - destruct (Z.eqb_spec bx X) as [E1|E1]; cbn [andb];
      [|apply Hpush; [reflexivity|intros [H _]; contradiction]].
    destruct (Z.eqb_spec by_ l) as [E2|E2]; cbn [andb];
      [|apply Hpush; [reflexivity|intros [_ [H _]]; contradiction]].
    destruct (Z.eqb_spec bc (v * -1)) as [E3|E3]; cbn [andb];
      [|apply Hpush; [reflexivity|intros [_ [_ H]]; contradiction]].
    subst bx by_ bc. inversion Hu as [|? ? U1 U2]; subst. inversion Hs as [|? ? S1 S2]; subst.
    inversion Hp as [|? ? P1 P2]; subst.
    split.
    + repeat split.
      * constructor; [unfold unit_count, vc; cbn [snd]; lia|exact U2].
      * constructor; [exact S1|]. eapply Forall_impl; [|exact Hh]. intros w Hw. left.
        unfold pos_lt, vx, vy in *. cbn [fst snd] in *. lia.
      * eapply Forall_impl; [|exact Hh]. intros w Hw.
        unfold pos_lt, vx, vy in *. cbn [fst snd] in *. lia.
      * constructor; [unfold vx, vy; cbn [fst snd]; lia|].
        eapply Forall_impl; [|exact P2]. intros w Hw. cbn beta in *. lia.
    + intros x y. cbn [cnt]. unfold vx, vy, vc. cbn [fst snd].
      destruct (Z.leb_spec X x), (Z.leb_spec l y), (Z.leb_spec h y), (Z.ltb_spec y h);
        cbn [andb]; lia.
Qed.

Lemma rout_ok_mono rout X Y Y' : Y <= Y' -> rout_ok rout X Y -> rout_ok rout X Y'.
Proof.
  intros H [H1 [H2 H3]]. repeat split; try apply H1; try exact H2.
  eapply Forall_impl; [|exact H3]. intros w Hw. cbn beta in *. lia.
Qed.

Lemma emit_ok X hi c : forall rout Y lo,
  rout_ok rout X Y -> Y <= lo -> lo <= hi -> chain lo hi c ->
  rout_ok (emit X rout c) X hi /\
  forall x y, cnt (emit X rout c) x y = cnt rout x y + (if X <=? x then ecount c y else 0).
Proof.
  induction c as [|[[l h] v] c IH]; intros rout Y lo Hr HY Hlo Hc.
  - cbn [emit fold_left ecount]. split.
    + apply (rout_ok_mono rout X Y); [lia|exact Hr].
    + intros x y. destruct (X <=? x); lia.
  - cbn [chain] in Hc. destruct Hc as [C1 [C2 [C3 [C4 C5]]]].
    cbn [emit fold_left].
    destruct (emit_edge_ok X rout Y l h v Hr) as [E1 E2]; [lia|lia|exact C4|].
    destruct (IH _ h h E1 ltac:(lia) C3 C5) as [I1 I2]. split; [exact I1|].
    intros x y. unfold emit in I2. rewrite I2, E2. cbn [ecount].
    destruct (X <=? x); lia.
Qed.

(* ---------- invariant ---------- *)
Definition before (X Y : Z) (e : tev) : Prop := ex e < X \/ (ex e = X /\ ey e <= Y).

Record inv (E : list tev) (s : gs) : Prop := {
  inv_before : Forall (before (g_x s) (g_y s)) E;
  inv_count : g_c s = tsum (fun a _ => a =? g_x s) E;
  inv_scan : scan_ok ops (g_bo s) (g_y s);
  inv_val : forall y, sval ops (g_bo s) y =
    if y <? g_y s then tsum (fun a b => (a <=? g_x s) && (b <=? y)) E
    else tsum (fun a b => (a <? g_x s) && (b <=? y)) E;
  inv_rout : rout_ok (g_rout s) (g_x s) (g_y s);
  inv_cnt : forall x y, cnt (g_rout s) x y =
    if x <? g_x s then ind ops (tcnt E x y) else ind ops (sval ops (g_bo s) y)
}.

(* once everything up to y >= g_y is known, column X contributes its total *)
Lemma col_done E X Y y : Forall (before X Y) E -> Y <= y ->
  tsum (fun a b => (a <=? X) && (b <=? y)) E
  = add (tsum (fun a b => (a <? X) && (b <=? y)) E) (tsum (fun a _ => a =? X) E).
Proof.
  intros HB Hy. rewrite (tsum_split _ (fun a _ => a <? X)). f_equal.
  - apply tsum_ext. eapply Forall_impl; [|exact HB]. intros e He. cbn beta. lia.
  - apply tsum_ext. eapply Forall_impl; [|exact HB]. intros e He. unfold before in He. cbn beta. lia.
Qed.

Definition ev_le (e f : tev) : Prop := ex e < ex f \/ (ex e = ex f /\ ey e <= ey f).

Lemma step_inv E s e : inv E s ->
  (g_x s < ex e /\ tsum (fun a _ => a =? g_x s) E = null) \/ (g_x s = ex e /\ g_y s <= ey e) ->
  exists s', gen_step s e = Some s' /\ inv (E ++ [e]) s' /\ g_x s' = ex e /\ g_y s' = ey e.
Proof.
  intros [I1 I2 I3 I4 I5 I6] [[Hx Hcol]|[Hx Hy]]; unfold gen_step.
  - (* new column *)
    destruct (Z.eqb_spec (g_x s) (ex e)) as [E0|E0]; [lia|]. cbn [negb].
    eexists. split; [reflexivity|]. split; [|split; reflexivity].
    assert (Hsv : forall y, sval ops (g_bo s) y = tsum (fun a b => (a <=? g_x s) && (b <=? y)) E).
    { intros y. rewrite I4. destruct (Z.ltb_spec y (g_y s)) as [Hlt|Hge]; [reflexivity|].
      rewrite (col_done E (g_x s) (g_y s) y I1) by lia. rewrite Hcol, add_null_r. reflexivity. }
    assert (Hadv : forall y, sval ops (advanceScan (g_bo s)) y = sval ops (g_bo s) y) by reflexivity.
    constructor; cbn [g_x g_y g_c g_bo g_rout].
    + apply Forall_app. split.
      * eapply Forall_impl; [|exact I1]. intros f Hf. unfold before in *. lia.
      * constructor; [unfold before; lia|constructor].
    + rewrite tsum_snoc. rewrite (tsum_none _ E).
      * rewrite Z.eqb_refl. symmetry. apply (cl_null ops L).
      * eapply Forall_impl; [|exact I1]. intros f Hf. unfold before in Hf. cbn beta. lia.
    + eapply scan_ok_advance. exact I3.
    + intros y. rewrite Hadv, Hsv.
      assert (Hall : forall (q : Z -> bool), (forall a, a <= g_x s -> q a = true) ->
        tsum (fun a b => q a && (b <=? y)) E = tsum (fun a b => (a <=? g_x s) && (b <=? y)) E).
      { intros q Hq. apply tsum_ext. eapply Forall_impl; [|exact I1]. intros f Hf. unfold before in Hf.
        cbn beta. rewrite Hq by lia. destruct (Z.leb_spec (ex f) (g_x s)); [reflexivity|lia]. }
      rewrite !tsum_snoc.
      destruct (Z.ltb_spec y (ey e)) as [Hlt|Hge].
      * destruct (Z.leb_spec (ey e) y); [lia|]. rewrite andb_false_r, add_null_r.
        symmetry. apply (Hall (fun a => a <=? ex e)). intros a Ha. lia.
      * destruct (Z.ltb_spec (ex e) (ex e)); [lia|]. cbn [andb]. rewrite add_null_r.
        symmetry. apply (Hall (fun a => a <? ex e)). intros a Ha. lia.
    + destruct I5 as [R1 [R2 R3]]. repeat split; try apply R1; try exact R2.
      eapply Forall_impl; [|exact R3]. intros w Hw. cbn beta in *. lia.
    + intros x y. rewrite I6, Hadv. unfold tcnt.
      destruct (Z.ltb_spec x (g_x s)) as [H1|H1].
      * destruct (Z.ltb_spec x (ex e)); [|lia]. rewrite tsum_snoc.
        destruct (Z.leb_spec (ex e) x); [lia|]. cbn [andb]. rewrite add_null_r. reflexivity.
      * destruct (Z.ltb_spec x (ex e)) as [H2|H2]; [|reflexivity]. rewrite tsum_snoc.
        destruct (Z.leb_spec (ex e) x); [lia|]. cbn [andb]. rewrite add_null_r, Hsv. f_equal.
        apply tsum_ext. eapply Forall_impl; [|exact I1]. intros f Hf. unfold before in Hf. cbn beta.
        destruct (Z.leb_spec (ex f) (g_x s)), (Z.leb_spec (ex f) x); try lia; reflexivity.
  - (* same column *)
    destruct (Z.eqb_spec (g_x s) (ex e)) as [E0|E0]; [|lia]. cbn [negb].
    assert (Hmain : exists bo rout,
      (if negb (ey e =? g_y s) && negb (t_eqb ops (g_c s) null) then
         do '(bo, container) <- processInterval ops (g_bo s) (g_y s) (ey e) (g_c s);
         Some (bo, emit (g_x s) (g_rout s) container)
       else Some (g_bo s, g_rout s)) = Some (bo, rout) /\
      scan_ok ops bo (ey e) /\
      (forall y, sval ops bo y = if (g_y s <=? y) && (y <? ey e) then add (sval ops (g_bo s) y) (g_c s)
                                else sval ops (g_bo s) y) /\
      rout_ok rout (g_x s) (ey e) /\
      (forall x y, cnt rout x y = cnt (g_rout s) x y +
         if g_x s <=? x then ind ops (sval ops bo y) - ind ops (sval ops (g_bo s) y) else 0)).
    { destruct (Z.eqb_spec (ey e) (g_y s)) as [Ey|Ey]; cbn [negb andb].
      - exists (g_bo s), (g_rout s). rewrite Ey. split; [reflexivity|]. split; [exact I3|].
        split; [|split; [exact I5|]].
        + intros y. destruct (Z.leb_spec (g_y s) y), (Z.ltb_spec y (g_y s)); cbn [andb]; try reflexivity; lia.
        + intros x y. destruct (g_x s <=? x); lia.
      - destruct (t_eqb ops (g_c s) null) eqn:Ec; cbn [negb].
        + apply (cl_eqb ops L) in Ec. exists (g_bo s), (g_rout s). split; [reflexivity|].
          split; [|split; [|split]].
          * eapply scan_ok_mono; [|exact I3]. lia.
          * intros y. rewrite Ec, add_null_r. destruct (_ && _); reflexivity.
          * eapply rout_ok_mono; [|exact I5]. lia.
          * intros x y. destruct (g_x s <=? x); lia.
        + destruct (processInterval_spec ops L (g_bo s) (g_y s) (ey e) (g_c s) I3) as [bo [out [P1 [P2 [P3 [P4 P5]]]]]].
          { lia. }
          { intros Hn. rewrite Hn in Ec. assert (t_eqb ops null null = true) by (apply (cl_eqb ops L); reflexivity).
            congruence. }
          exists bo, (emit (g_x s) (g_rout s) out). rewrite P1. cbn [bind]. split; [reflexivity|].
          split; [exact P2|]. split; [exact P3|].
          destruct (emit_ok (g_x s) (ey e) out (g_rout s) (g_y s) (g_y s) I5) as [M1 M2]; [lia|lia|exact P4|].
          split; [exact M1|]. intros x y. rewrite M2, P5. reflexivity. }
    destruct Hmain as [bo [rout [M1 [M2 [M3 [M4 M5]]]]]]. rewrite M1. cbn [bind].
    eexists. split; [reflexivity|]. split; [|split; [exact E0|reflexivity]].
    constructor; cbn [g_x g_y g_c g_bo g_rout].
    + apply Forall_app. split.
      * eapply Forall_impl; [|exact I1]. intros f Hf. unfold before in *. lia.
      * constructor; [unfold before; lia|constructor].
    + rewrite tsum_snoc, <- I2, <- E0, Z.eqb_refl. reflexivity.
    + exact M2.
    + intros y. rewrite M3, I4, !tsum_snoc, <- E0.
      destruct (Z.leb_spec (g_y s) y) as [H1|H1]; cbn [andb].
      * destruct (Z.ltb_spec y (g_y s)) as [H0|H0]; [lia|].
        destruct (Z.ltb_spec y (ey e)) as [H2|H2].
        -- destruct (Z.leb_spec (ey e) y); [lia|]. rewrite andb_false_r, add_null_r.
           rewrite (col_done E (g_x s) (g_y s) y I1 H1), I2. reflexivity.
        -- destruct (Z.ltb_spec (g_x s) (g_x s)); [lia|]. cbn [andb]. rewrite add_null_r. reflexivity.
      * destruct (Z.ltb_spec y (g_y s)) as [H0|H0]; [|lia].
        destruct (Z.ltb_spec y (ey e)) as [H2|H2]; [|lia].
        destruct (Z.leb_spec (ey e) y); [lia|]. rewrite andb_false_r, add_null_r. reflexivity.
    + exact M4.
    + intros x y. rewrite M5, I6. unfold tcnt. rewrite tsum_snoc, <- E0.
      destruct (Z.ltb_spec x (g_x s)) as [H1|H1], (Z.leb_spec (g_x s) x) as [H2|H2]; try lia.
      cbn [andb]. rewrite add_null_r. lia.
Qed.

(* closedness of the columns of the stream *)
Definition tcols_closed (E : list tev) : Prop := forall x, tsum (fun a _ => a =? x) E = null.

Lemma loop_inv F : forall E s, inv E s -> Forall (ev_le (g_x s, g_y s, null)) F ->
  StronglySorted ev_le F -> tcols_closed (E ++ F) ->
  exists s', gen_loop s F = Some s' /\ inv (E ++ F) s'.
Proof.
  induction F as [|e F IH]; intros E s HI Hle Hsort Hcl.
  - exists s. rewrite app_nil_r. split; [reflexivity|exact HI].
  - inversion Hle as [|? ? H1 H2]; subst. inversion Hsort as [|? ? S1 S2]; subst.
    unfold ev_le in H1. unfold ex at 1 3, ey at 1 in H1. cbn [fst snd] in H1.
    destruct (step_inv E s e HI) as [s' [P1 [P2 [P3 P4]]]].
    { destruct H1 as [H1|[H1 H1']]; [left|right; split; assumption]. split; [exact H1|].
      specialize (Hcl (g_x s)). rewrite tsum_app in Hcl.
      rewrite (tsum_none _ (e :: F)), add_null_r in Hcl; [exact Hcl|].
      constructor; [lia|]. eapply Forall_impl; [|exact S2]. intros f Hf. unfold ev_le in Hf. cbn beta. lia. }
    cbn [gen_loop]. rewrite P1. cbn [bind].
    replace (E ++ e :: F) with ((E ++ [e]) ++ F) by (rewrite <- app_assoc; reflexivity).
    apply IH.
    + exact P2.
    + rewrite P3, P4. eapply Forall_impl; [|exact S2]. intros f Hf. exact Hf.
    + exact S1.
    + rewrite <- app_assoc. exact Hcl.
Qed.

Lemma StronglySorted_rev_gen {X : Type} (R : X -> X -> Prop) l :
  StronglySorted (fun a b => R b a) l -> StronglySorted R (rev l).
Proof.
  induction l as [|a l IH]; intros H; cbn [rev]; [constructor|].
  inversion H as [|? ? H1 H2]; subst. specialize (IH H1).
  assert (Ha : Forall (fun b => R b a) (rev l)).
  { apply Forall_rev. exact H2. }
  clear H H1 H2. induction (rev l) as [|b r IHr]; cbn [app].
  - repeat constructor.
  - inversion IH as [|? ? I1 I2]; subst. inversion Ha as [|? ? A1 A2]; subst.
    constructor; [apply IHr; assumption|]. apply Forall_app. split; [exact I2|]. repeat constructor. exact A1.
Qed.

Lemma rcanon_canonical rout : rcanon rout -> canonical (rev rout).
Proof.
  intros [H1 H2]. split; [apply Forall_rev; exact H1|]. apply StronglySorted_rev_gen. exact H2.
Qed.

(* ---------- result of the scan from the first event on ---------- *)
Theorem gen_scan e F :
  StronglySorted ev_le (e :: F) -> tcols_closed (e :: F) ->
  exists s', gen_loop (mk_gs (ex e) (ey e) (ec e) bo_init []) F = Some s' /\
    canonical (rev (g_rout s')) /\
    forall x y, cnt (rev (g_rout s')) x y = ind ops (tcnt (e :: F) x y).
Proof.
  intros Hs Hcl. inversion Hs as [|? ? S1 S2]; subst.
  set (s0 := mk_gs (ex e) (ey e) (ec e) bo_init []).
  assert (Hi : inv [e] s0).
  { constructor; cbn [s0 g_x g_y g_c g_bo g_rout tsum].
    - constructor; [unfold before; lia|constructor].
    - rewrite Z.eqb_refl. symmetry. apply add_null_r.
    - apply scan_ok_init.
    - intros y. unfold sval, bo_init. cbn [scanData mval].
      destruct (Z.ltb_spec y (ey e)) as [H|H].
      + destruct (Z.leb_spec (ey e) y); [lia|]. rewrite andb_false_r, add_null_r. reflexivity.
      + destruct (Z.ltb_spec (ex e) (ex e)); [lia|]. cbn [andb]. rewrite add_null_r. reflexivity.
    - repeat split; constructor.
    - intros x y. cbn [cnt]. unfold tcnt. cbn [tsum]. unfold sval, bo_init. cbn [scanData mval].
      assert (Hind : ind ops null = 0).
      { unfold ind. pose proof (cl_int_null ops L) as Hn. destruct (Z.gtb_spec (t_int ops null) 0); [lia|reflexivity]. }
      destruct (Z.ltb_spec x (ex e)) as [H|H]; [|symmetry; exact Hind].
      destruct (Z.leb_spec (ex e) x); [lia|]. cbn [andb]. rewrite add_null_r. symmetry; exact Hind. }
  destruct (loop_inv F [e] s0 Hi) as [s' [H1 H2]].
  - cbn [s0 g_x g_y]. eapply Forall_impl; [|exact S2]. intros f Hf. exact Hf.
  - exact S1.
  - exact Hcl.
  - exists s'. split; [exact H1|]. destruct H2 as [I1 I2 I3 I4 I5 I6]. cbn [app] in *.
    split; [apply rcanon_canonical; apply I5|].
    intros x y. rewrite cnt_rev, I6.
    destruct (Z.ltb_spec x (g_x s')) as [Hx|Hx]; [reflexivity|]. f_equal. rewrite I4. unfold tcnt.
    destruct (Z.ltb_spec y (g_y s')) as [Hy|Hy].
    + apply tsum_ext. eapply Forall_impl; [|exact I1]. intros f Hf. unfold before in Hf. cbn beta.
      destruct (Z.leb_spec (ex f) (g_x s')), (Z.leb_spec (ex f) x); try lia; reflexivity.
    + transitivity (tsum (fun a b => (a <=? g_x s') && (b <=? y)) (e :: F)).
      * rewrite (col_done _ _ _ y I1) by lia. rewrite (Hcl (g_x s')), add_null_r. reflexivity.
      * apply tsum_ext. eapply Forall_impl; [|exact I1]. intros f Hf. unfold before in Hf. cbn beta.
        destruct (Z.leb_spec (ex f) (g_x s')), (Z.leb_spec (ex f) x); try lia; reflexivity.
Qed.
End Loop.
