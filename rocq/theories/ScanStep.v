(* Meaning of processInterval: it adds delta on [low,high) and reports the
   intervals on which "count > 0" changed. *)
From Verif Require Import Base Scan90Spec BoolOpModel ScanMap ScanProcess.

(* net value of reported edges at y *)
Fixpoint ecount (out : list out_edge) (y : Z) : Z :=
  match out with
  | [] => 0
  | ((l, h), v) :: r => (if (l <=? y) && (y <? h) then v else 0) + ecount r y
  end.

(* reported edges are disjoint, increasing, within [lo,hi], with values +-1 *)
Fixpoint chain (lo hi : Z) (out : list out_edge) : Prop :=
  match out with
  | [] => True
  | ((l, h), v) :: r => lo <= l /\ l < h /\ h <= hi /\ (v = 1 \/ v = -1) /\ chain h hi r
  end.

Lemma chain_weaken lo lo' hi out : lo' <= lo -> chain lo hi out -> chain lo' hi out.
Proof. destruct out as [|[[l h] v] r]; cbn [chain]; [trivial|]. intros; intuition lia. Qed.

Lemma ecount_app o1 o2 y : ecount (o1 ++ o2) y = ecount o1 y + ecount o2 y.
Proof. induction o1 as [|[[l h] v] o1 IH]; cbn [app ecount]; [reflexivity|]. rewrite IH. lia. Qed.

Lemma chain_outside lo hi out y : chain lo hi out -> y < lo \/ hi <= y -> ecount out y = 0.
Proof.
  revert lo. induction out as [|[[l h] v] r IH]; intros lo H Hy; cbn [ecount]; [reflexivity|].
  cbn [chain] in H. destruct H as [H1 [H2 [H3 [H4 H5]]]].
  rewrite (IH h H5) by lia.
  destruct (Z.leb_spec l y), (Z.ltb_spec y h); cbn [andb]; lia.
Qed.

Section Step.
Context {T : Type} (ops : count_ops T) (L : count_laws ops).
Notation null := (t_null ops).
Notation add := (t_add ops).
Implicit Types (m A B C P : smap T).

Definition ind (t : T) : Z := b2z (t_int ops t >? 0).

Lemma evaluateInterval_value lo hi b a :
  evaluateInterval_ ops lo hi b a = if ind a - ind b =? 0 then [] else [((lo, hi), ind a - ind b)].
Proof.
  unfold evaluateInterval_, ind.
  destruct (t_int ops b >? 0), (t_int ops a >? 0); reflexivity.
Qed.

Lemma ind_range t : 0 <= ind t <= 1.
Proof. unfold ind. destruct (t_int ops t >? 0); cbn [b2z]; lia. Qed.

Lemma outs_chain B : forall lo hi delta, ksorted B -> kge lo B -> klt hi B -> chain lo hi (outs ops B hi delta).
Proof.
  induction B as [|[k v] B IH]; intros lo hi delta Hs Hg Hl; cbn [outs]; [exact I|].
  apply ksorted_cons in Hs. destruct Hs as [Hs Hk].
  apply kge_cons in Hg. destruct Hg as [Hg Hg'].
  apply klt_cons in Hl. destruct Hl as [Hl Hl'].
  set (nx := match B with [] => hi | (k', _) :: _ => k' end).
  assert (Hnx : k < nx /\ nx <= hi /\ kge nx B).
  { unfold nx. destruct B as [|[k' v'] B].
    - repeat split; [exact Hl|lia|constructor].
    - apply kge_cons in Hk. apply klt_cons in Hl'. repeat split; try lia.
      apply kge_cons. split; [lia|]. apply ksorted_cons in Hs.
      eapply kge_weaken; [|apply Hs]. lia. }
  destruct Hnx as [N1 [N2 N3]].
  rewrite evaluateInterval_value.
  destruct (Z.eqb_spec (ind (add v delta) - ind v) 0) as [Ev|Ev]; cbn [app].
  - apply (chain_weaken nx); [lia|]. apply IH; assumption.
  - cbn [chain]. pose proof (ind_range (add v delta)). pose proof (ind_range v).
    repeat split; try lia. apply IH; assumption.
Qed.

Lemma outs_count B : forall d hi delta y, ksorted B -> klt hi B ->
  ecount (outs ops B hi delta) y =
  match B with
  | [] => 0
  | (k, _) :: _ => if (k <=? y) && (y <? hi) then ind (add (mval d B y) delta) - ind (mval d B y) else 0
  end.
Proof.
  induction B as [|[k v] B IH]; intros d hi delta y Hs Hl; cbn [outs]; [reflexivity|].
  apply ksorted_cons in Hs. destruct Hs as [Hs Hk].
  apply klt_cons in Hl. destruct Hl as [Hl Hl'].
  rewrite ecount_app, (IH v hi delta y Hs Hl').
  rewrite evaluateInterval_value.
  cbn [mval].
  assert (He : forall nx, ecount (if ind (add v delta) - ind v =? 0 then [] else [((k, nx), ind (add v delta) - ind v)]) y
     = if (k <=? y) && (y <? nx) then ind (add v delta) - ind v else 0).
  { intros nx. destruct (Z.eqb_spec (ind (add v delta) - ind v) 0) as [Ev|Ev]; cbn [ecount]; [|lia].
    rewrite Ev. destruct ((k <=? y) && (y <? nx)); reflexivity. }
  rewrite He.
  destruct B as [|[k' v'] B].
  - cbn [mval]. destruct (Z.leb_spec k y), (Z.ltb_spec y hi); cbn [andb]; lia.
  - apply kge_cons in Hk. destruct Hk as [Hk Hk']. apply klt_cons in Hl'. destruct Hl' as [Hl' _].
    cbn [mval].
    destruct (Z.leb_spec k y), (Z.ltb_spec y k'), (Z.leb_spec k' y), (Z.ltb_spec y hi); cbn [andb]; try lia.
Qed.

Lemma mval_head_ge d d' k v B y : k <= y -> mval d ((k, v) :: B) y = mval d' ((k, v) :: B) y.
Proof. intros H. cbn [mval]. destruct (Z.leb_spec k y); [reflexivity|lia]. Qed.

Lemma drop_low_lastval A B : lastval null (A ++ drop_low ops A B) = lastval null (A ++ B).
Proof.
  destruct A as [|p A]; [reflexivity|]. destruct B as [|[k v] B]; [reflexivity|].
  unfold drop_low. destruct (t_eqb ops _ v) eqn:E; [|reflexivity].
  apply (cl_eqb ops L) in E. rewrite !lastval_app. cbn [lastval] in *. rewrite E. reflexivity.
Qed.

Lemma drop_low_mval A B y : ksorted (A ++ B) -> mval null (A ++ drop_low ops A B) y = mval null (A ++ B) y.
Proof.
  intros Hs.
  destruct A as [|p A]; [reflexivity|]. destruct B as [|[k v] B]; [reflexivity|].
  unfold drop_low. destruct (t_eqb ops _ v) eqn:E; [|reflexivity].
  apply (cl_eqb ops L) in E.
  apply sorted_mid in Hs. destruct Hs as [H1 [H2 _]].
  destruct (Z.leb_spec k y) as [Hk|Hk].
  - rewrite !mval_above by (eapply klt_weaken; [|exact H1]; lia). rewrite E. cbn [mval].
    destruct (Z.leb_spec k y); [reflexivity|lia].
  - rewrite !mval_below; [reflexivity| |].
    + apply kge_cons. split; [lia|]. eapply kge_weaken; [|exact H2]. lia.
    + eapply kge_weaken; [|exact H2]. lia.
Qed.

Lemma with_key_mval k d C y : kge k C -> mval d (with_key k d C) y = mval d C y.
Proof.
  intros H. destruct C as [|[k' v] C]; cbn [with_key].
  - cbn [mval]. destruct (k <=? y); reflexivity.
  - destruct (k' =? k); [reflexivity|]. cbn [mval]. apply kge_cons in H.
    destruct (Z.leb_spec k y), (Z.leb_spec k' y); try reflexivity; lia.
Qed.

Lemma with_key_lastval k d C : lastval d (with_key k d C) = lastval d C.
Proof. destruct C as [|[k' v] C]; cbn [with_key]; [reflexivity|]. destruct (k' =? k); reflexivity. Qed.

Lemma add_all_mval d delta B y : mval (add d delta) (add_all ops delta B) y = add (mval d B y) delta.
Proof.
  revert d. induction B as [|[k v] B IH]; intros d; cbn [add_all map fst snd mval]; [reflexivity|].
  destruct (k <=? y); [apply IH|reflexivity].
Qed.

Lemma drop_low_klt k A B : klt k B -> klt k (drop_low ops A B).
Proof.
  intros H. destruct (drop_low_sub ops A B) as [X E]. rewrite E in H. apply klt_app in H. apply H.
Qed.
Lemma drop_low_kge k A B : kge k B -> kge k (drop_low ops A B).
Proof.
  intros H. destruct (drop_low_sub ops A B) as [X E]. rewrite E in H. apply kge_app in H. apply H.
Qed.

(* state invariant of the scan map *)
Definition scan_ok (s : bo_state T) (pos : Z) : Prop :=
  ksorted (scanData s) /\ lastval null (scanData s) = null /\ hint_ok s pos.

Definition sval (s : bo_state T) (y : Z) : T := mval null (scanData s) y.

Lemma lastval_nonempty d d' k v C : lastval d ((k, v) :: C) = lastval d' ((k, v) :: C).
Proof. reflexivity. Qed.

Theorem processInterval_spec s low high delta :
  scan_ok s low -> low < high -> delta <> null ->
  exists s' out, processInterval ops s low high delta = Some (s', out) /\
    scan_ok s' high /\
    (forall y, sval s' y = if (low <=? y) && (y <? high) then add (sval s y) delta else sval s y) /\
    chain low high out /\
    (forall y, ecount out y = ind (sval s' y) - ind (sval s y)).
Proof.
  intros [Hs [Hlast Hh]] Hlh Hd.
  destruct (ksorted_split low (scanData s) Hs) as [A [R [E [HA HR]]]].
  assert (SR : ksorted A /\ ksorted R). { rewrite E in Hs. apply ksorted_app in Hs. tauto. }
  destruct SR as [SA SR].
  destruct (ksorted_split high R SR) as [B [C [ER [HB HC]]]].
  rewrite ER in E, HR, SR. apply kge_app in HR. destruct HR as [HBl HCl].
  apply ksorted_app in SR. destruct SR as [SB [SC _]].
  exists (mk_bo (A ++ pi_B2 ops A B low delta ++ pi_C2 ops A B C low high delta)
              (m_begin (pi_C2 ops A B C low high delta))), (outs ops (pi_B1 ops A B low) high delta).
  split.
  { apply processInterval_form; assumption. }
  destruct (with_key_cons high (lastval null (A ++ B)) C) as [vh [C' EC1]].
  fold (pi_C1 ops A B C high) in EC1.
  destruct (with_key_cons low (lastval null A) B) as [vl [B' EB1]].
  fold (pi_B1 ops A B low) in EB1.
  set (B1 := pi_B1 ops A B low) in *.
  set (C1 := pi_C1 ops A B C high) in *.
  set (B2 := pi_B2 ops A B low delta) in *.
  set (C2 := pi_C2 ops A B C low high delta) in *.
  assert (EB2 : B2 = drop_low ops A (add_all ops delta B1)) by reflexivity.
  assert (EC2 : C2 = drop_low ops (A ++ B2) C1) by reflexivity.
  assert (SB1 : ksorted B1 /\ kge low B1) by (apply with_key_sorted; assumption).
  destruct SB1 as [SB1 GB1].
  assert (SC1 : ksorted C1 /\ kge high C1) by (apply with_key_sorted; assumption).
  destruct SC1 as [SC1 GC1].
  assert (LB1 : klt high B1) by (apply with_key_klt; assumption).
  assert (LA : klt high A) by (eapply klt_weaken; [|exact HA]; lia).
  assert (S1 : ksorted (A ++ add_all ops delta B1)).
  { apply (ksorted_glue low); try assumption; [apply add_all_sorted|apply add_all_kge]; assumption. }
  assert (S2 : ksorted (A ++ B2)). { rewrite EB2. apply ksorted_drop. exact S1. }
  assert (L2 : klt high (A ++ B2)).
  { apply klt_app. split; [exact LA|]. rewrite EB2. apply drop_low_klt. apply add_all_klt. exact LB1. }
  assert (S3 : ksorted ((A ++ B2) ++ C1)) by (apply (ksorted_glue high); assumption).
  assert (S4 : ksorted ((A ++ B2) ++ C2)). { rewrite EC2. apply ksorted_drop. exact S3. }
  assert (HB1f : forall y, low <= y -> mval (lastval null A) B1 y = mval (lastval null A) B y).
  { intros y Hy. apply with_key_mval. exact HBl. }
  assert (LB1v : lastval (lastval null A) B1 = lastval (lastval null A) B) by apply with_key_lastval.
  assert (Hval : forall y, sval (mk_bo (A ++ B2 ++ C2) (m_begin C2)) y =
     if (low <=? y) && (y <? high) then add (sval s y) delta else sval s y).
  { intros y. unfold sval. cbn [scanData]. rewrite app_assoc, EC2.
    rewrite (drop_low_mval (A ++ B2) C1 y S3). rewrite E.
    destruct (Z.leb_spec low y) as [Hy1|Hy1]; cbn [andb].
    - destruct (Z.ltb_spec y high) as [Hy2|Hy2].
      + (* inside *)
        assert (KC1 : kge (y + 1) C1) by (eapply kge_weaken; [|exact GC1]; lia).
        assert (KC : kge (y + 1) C) by (eapply kge_weaken; [|exact HC]; lia).
        assert (KA : klt (y + 1) A) by (eapply klt_weaken; [|exact HA]; lia).
        rewrite (mval_below _ (A ++ B2) C1 y KC1), EB2, (drop_low_mval _ _ y S1).
        rewrite !(mval_above _ A) by exact KA. rewrite (mval_below _ B C y KC).
        rewrite <- (HB1f y Hy1). rewrite EB1.
        rewrite <- add_all_mval. cbn [add_all map fst snd]. apply mval_head_ge. exact Hy1.
      + (* above *)
        assert (KAB2 : klt (y + 1) (A ++ B2)) by (eapply klt_weaken; [|exact L2]; lia).
        assert (KAB : klt (y + 1) (A ++ B)).
        { apply klt_app. split; eapply klt_weaken; try eassumption; lia. }
        rewrite (mval_above _ (A ++ B2) C1 y KAB2).
        rewrite app_assoc, (mval_above _ (A ++ B) C y KAB).
        rewrite <- (with_key_mval high (lastval null (A ++ B)) C y HC).
        fold (pi_C1 ops A B C high). fold C1. rewrite EC1. apply mval_head_ge. lia.
    - (* below *)
      assert (KR : kge (y + 1) (B ++ C)).
      { apply kge_app. split; eapply kge_weaken; try eassumption; lia. }
      assert (KB2 : kge (y + 1) B2).
      { rewrite EB2. apply drop_low_kge. apply add_all_kge. eapply kge_weaken; [|exact GB1]. lia. }
      assert (KC1 : kge (y + 1) C1) by (eapply kge_weaken; [|exact GC1]; lia).
      rewrite (mval_below _ (A ++ B2) C1 y KC1), (mval_below _ A B2 y KB2), (mval_below _ A _ y KR).
      reflexivity. }
  split; [|split; [exact Hval|split]].
  - unfold scan_ok. cbn [scanData]. split; [rewrite app_assoc; exact S4|]. split.
    + rewrite app_assoc, EC2, drop_low_lastval.
      rewrite lastval_app, EC1. rewrite (lastval_nonempty _ (lastval null (A ++ B))), <- EC1.
      unfold C1, pi_C1. rewrite with_key_lastval. rewrite <- lastval_app, <- app_assoc, <- E. exact Hlast.
    + apply (hint_ok_begin _ (A ++ B2)); [rewrite app_assoc; reflexivity|exact L2].
  - apply outs_chain; assumption.
  - intros y. rewrite (outs_count B1 (lastval null A) high delta y SB1 LB1), EB1, <- EB1.
    rewrite Hval.
    destruct (Z.leb_spec low y) as [Hy1|Hy1], (Z.ltb_spec y high) as [Hy2|Hy2]; cbn [andb]; try lia.
    assert (KC : kge (y + 1) C) by (eapply kge_weaken; [|exact HC]; lia).
    assert (KA : klt (y + 1) A) by (eapply klt_weaken; [|exact HA]; lia).
    assert (Ev : sval s y = mval (lastval null A) B1 y).
    { unfold sval. rewrite E, (mval_above _ A _ y KA), (mval_below _ B C y KC). symmetry. apply HB1f. lia. }
    rewrite Ev. reflexivity.
Qed.

Lemma scan_ok_advance s pos : scan_ok s pos -> forall p, scan_ok (advanceScan s) p.
Proof.
  intros [Hs [Hl _]] p. unfold scan_ok, advanceScan. cbn [scanData]. repeat split; try assumption.
  apply (hint_ok_begin _ []); [reflexivity|constructor].
Qed.

Lemma scan_ok_mono s p q : p <= q -> scan_ok s p -> scan_ok s q.
Proof. intros Hpq [H1 [H2 H3]]. repeat split; try assumption. eapply hint_ok_mono; eassumption. Qed.

Lemma scan_ok_init pos : scan_ok bo_init pos.
Proof. repeat split. constructor. Qed.
End Step.
