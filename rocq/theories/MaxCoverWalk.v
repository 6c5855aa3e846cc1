(* The walk over the graph of nodes: which intervals are traced and what is
   written. *)
From Verif Require Import Base Scan90Spec Set90Spec Set90Model GeoSpec IvlModel RectFormModel MaxCoverModel MaxCoverDag.

Definition inter (i j : ivl) : ivl := mk_ivl (Z.max (lo i) (lo j)) (Z.min (hi i) (hi j)).
Definition nonempty (i : ivl) : Prop := lo i < hi i.
Definition within (i j : ivl) : Prop := lo j <= lo i /\ hi i <= hi j.

Lemma ivl_eq i j : lo i = lo j -> hi i = hi j -> i = j.
Proof. destruct i as [a b], j as [c d]; cbn [lo hi]; intros -> ->; reflexivity. Qed.
Lemma ivl_same_spec i j : ivl_same i j = true <-> i = j.
Proof.
  unfold ivl_same, ivl_less. split.
  - intros H. apply ivl_eq; destruct (Z.eqb_spec (lo i) (lo j)), (Z.eqb_spec (lo j) (lo i)); cbn [negb] in H; lia.
  - intros ->. rewrite Z.eqb_refl. cbn [negb]. lia.
Qed.
Lemma inter_within i j : within i j -> inter i j = i.
Proof. intros [H1 H2]. apply ivl_eq; cbn [inter lo hi]; lia. Qed.
Lemma traced_spec st n i : traced st n i = true <-> In (n, i) (ms_traced st).
Proof.
  unfold traced. rewrite existsb_exists. split.
  - intros [[m j] [H1 H2]]. cbn [fst snd] in H2. apply andb_true_iff in H2. destruct H2 as [H2 H3].
    apply Nat.eqb_eq in H2. apply ivl_same_spec in H3. subst. exact H1.
  - intros H. exists (n, i). split; [exact H|]. cbn [fst snd]. rewrite Nat.eqb_refl. cbn [andb]. apply ivl_same_spec. reflexivity.
Qed.
Lemma intersect_yes r n : nonempty (inter (sr_ivl r) (sr_ivl n)) ->
  intersect_i (sr_ivl r) (sr_ivl n) false = (true, inter (sr_ivl r) (sr_ivl n)).
Proof.
  unfold nonempty, inter, intersect_i. cbn [lo hi]. intros H.
  replace (Z.max (lo (sr_ivl r)) (lo (sr_ivl n)) <? Z.min (hi (sr_ivl r)) (hi (sr_ivl n))) with true by lia. reflexivity.
Qed.
Lemma intersect_no r n : ~ nonempty (inter (sr_ivl r) (sr_ivl n)) ->
  intersect_i (sr_ivl r) (sr_ivl n) false = (false, sr_ivl r).
Proof.
  unfold nonempty, inter, intersect_i. cbn [lo hi]. intros H.
  replace (Z.max (lo (sr_ivl r)) (lo (sr_ivl n)) <? Z.min (hi (sr_ivl r)) (hi (sr_ivl n))) with false by lia. reflexivity.
Qed.

Section Walk.
Variable ns : list srect.
Variable edges : list (nat * nat).
Hypothesis OK : nodes_ok ns.
Hypothesis KIDS : forall p q, In q (kids edges p) <-> dag_rel ns p q.

(* the intervals that can be seen from node n0 through the node n *)
Inductive chain (n0 : nat) : nat -> ivl -> Prop :=
| ch_one : forall r, nth_error ns n0 = Some r -> chain n0 n0 (sr_ivl r)
| ch_step : forall n i c rc, chain n0 n i -> In c (kids edges n) -> nth_error ns c = Some rc ->
    nonempty (inter i (sr_ivl rc)) -> chain n0 c (inter i (sr_ivl rc)).

Lemma chain_in n0 n i : chain n0 n i -> exists r, nth_error ns n = Some r /\ within i (sr_ivl r) /\ nonempty i.
Proof.
  intros [r E|m j c rc H K E N].
  - exists r. split; [exact E|]. split; [split; lia|]. destruct (no_ne ns OK _ _ E) as [Q _]. exact Q.
  - exists rc. split; [exact E|]. split; [|exact N]. unfold within, inter. cbn [lo hi]. lia.
Qed.
(* a parent of the first node can be put in front *)
Lemma chain_front p rp n0 n i : In n0 (kids edges p) -> nth_error ns p = Some rp -> chain n0 n i ->
  nonempty (inter i (sr_ivl rp)) -> chain p n (inter i (sr_ivl rp)).
Proof.
  intros Hk Ep H. induction H as [r E|m j c rc H IH K E N]; intros Ne.
  - assert (Q : inter (sr_ivl r) (sr_ivl rp) = inter (sr_ivl rp) (sr_ivl r)) by (apply ivl_eq; cbn [inter lo hi]; lia).
    rewrite Q in *. apply (ch_step p p); [constructor; exact Ep|exact Hk|exact E|exact Ne].
  - assert (Q : inter (inter j (sr_ivl rc)) (sr_ivl rp) = inter (inter j (sr_ivl rp)) (sr_ivl rc)) by (apply ivl_eq; cbn [inter lo hi]; lia).
    rewrite Q in *. apply (ch_step p m); [apply IH; unfold nonempty, inter in *; cbn [lo hi] in *; lia|exact K|exact E|exact Ne].
Qed.
Lemma chain_parent p rp n0 n i : In n0 (kids edges p) -> nth_error ns p = Some rp -> within i (sr_ivl rp) ->
  chain n0 n i -> chain p n i.
Proof.
  intros Hk Ep W H. destruct (chain_in _ _ _ H) as [r [_ [_ N]]].
  rewrite <- (inter_within i (sr_ivl rp) W). apply (chain_front p rp n0 n i Hk Ep H). rewrite (inter_within _ _ W). exact N.
Qed.
Lemma parent_before p n0 : In n0 (kids edges p) -> (p < n0)%nat.
Proof.
  intros H. apply KIDS in H. destruct H as [a [b [Ea [Eb [P1 [P2 P3]]]]]].
  destruct (no_ne ns OK _ _ Ea) as [_ Na].
  destruct (lt_eq_lt_dec p n0) as [[L|L]|L]; [exact L|subst; assert (a = b) by congruence; subst; lia|].
  pose proof (no_t ns OK n0 p a b L Ea Eb) as T. unfold t_lt in T. lia.
Qed.
(* nodes with the same trailing edge that see the same interval are the same *)
Lemma node_unique n m r q i : nth_error ns n = Some r -> nth_error ns m = Some q -> s_mh r = s_mh q ->
  within i (sr_ivl r) -> within i (sr_ivl q) -> nonempty i -> n = m.
Proof.
  intros En Em H W1 W2 N. unfold within, nonempty, sr_ivl in *. cbn [lo hi] in *.
  destruct (lt_eq_lt_dec n m) as [[L|L]|L]; [|exact L|].
  - pose proof (no_t ns OK n m r q L En Em) as T. unfold t_lt in T. lia.
  - pose proof (no_t ns OK m n q r L Em En) as T. unfold t_lt in T. lia.
Qed.

(* nothing continues the interval i beyond n, nothing before n0 *)
Definition stops (n : nat) (i : ivl) : Prop :=
  forall c rc, In c (kids edges n) -> nth_error ns c = Some rc -> ~ within i (sr_ivl rc).
Definition starts (n0 : nat) (i : ivl) : Prop :=
  forall p rp, In n0 (kids edges p) -> nth_error ns p = Some rp -> ~ within i (sr_ivl rp).
Definition seen (n0 n : nat) (i : ivl) (o : srect) : Prop :=
  exists r0 r, nth_error ns n0 = Some r0 /\ nth_error ns n = Some r /\ chain n0 n i /\
    stops n i /\ starts n0 i /\ o = mk_sr (lo i) (hi i) (s_ml r0) (s_mh r).

(* the state while root r0 is being processed; [open] are the pairs whose
   children are not all visited yet, [late] those that may still be written *)
Record sinv (r0 : nat) (open late : list (nat * ivl)) (st : mstate) : Prop := {
  v_chain : forall n i, In (n, i) (ms_traced st) -> exists n0, chain n0 n i;
  v_before : forall p n i, (p < r0)%nat -> chain p n i -> In (n, i) (ms_traced st);
  v_closed : forall n i c rc, In (n, i) (ms_traced st) -> ~ In (n, i) open -> In c (kids edges n) -> nth_error ns c = Some rc ->
    nonempty (inter i (sr_ivl rc)) -> In (c, inter i (sr_ivl rc)) (ms_traced st);
  v_out : forall o, In o (ms_out st) -> exists n0 n i, seen n0 n i o /\ In (n, i) (ms_traced st) /\ ~ In (n, i) late;
  v_all : forall n i, In (n, i) (ms_traced st) -> ~ In (n, i) late -> stops n i ->
    exists o r, In o (ms_out st) /\ nth_error ns n = Some r /\ sr_ivl o = i /\ s_mh o = s_mh r;
  v_late : forall p, In p late -> In p (ms_traced st);
  v_nodup : NoDup (ms_out st) }.
Definition grows (st st' : mstate) : Prop := forall p, In p (ms_traced st) -> In p (ms_traced st').

Lemma no_child_spec n i : exists b, no_child_contains ns (kids edges n) i = Some b /\ (nonempty i -> (b = true <-> stops n i)).
Proof.
  assert (G : forall ks, (forall k, In k ks -> exists r, nth_error ns k = Some r) ->
    exists b, no_child_contains ns ks i = Some b /\
      (nonempty i -> (b = true <-> forall c rc, In c ks -> nth_error ns c = Some rc -> ~ within i (sr_ivl rc)))).
  { induction ks as [|k ks IH]; intros Hk.
    - exists true. split; [reflexivity|]. intros _. split; [intros _ c rc []|reflexivity].
    - destruct (Hk k (or_introl eq_refl)) as [r Er]. destruct IH as [b [Eb Hb]]; [intros j Hj; apply Hk; right; exact Hj|].
      cbn [no_child_contains]. rewrite Er, Eb. cbn [bind]. eexists. split; [reflexivity|].
      intros N. specialize (Hb N). rewrite andb_true_iff, Hb, negb_true_iff.
      assert (C : contains_i (sr_ivl r) i true = false <-> ~ within i (sr_ivl r)).
      { unfold contains_i, contains_v, within, nonempty in *. lia. }
      rewrite C. split.
      + intros [H1 H2] c rc [<-|Hc] Ec; [assert (rc = r) by congruence; subst; exact H1|exact (H2 c rc Hc Ec)].
      + intros H. split; [exact (H k r (or_introl eq_refl) Er)|]. intros c rc Hc. apply H. right; exact Hc. }
  apply G. intros k Hk. apply KIDS in Hk. destruct Hk as [a [b [E _]]]. exists a; exact E.
Qed.

(* adding a pair that is new *)
Lemma add_inv r0 open late st n i b R : sinv r0 open late st -> ~ In (n, i) (ms_traced st) -> chain r0 n i ->
  nth_error ns r0 = Some R -> (b = true <-> stops n i) -> forall r, nth_error ns n = Some r ->
  sinv r0 ((n, i) :: open) late
    (if b then write (mk_sr (lo i) (hi i) (s_ml R) (s_mh r)) (add_path n i st) else add_path n i st).
Proof.
  intros V Nt C ER Hb r Er.
  assert (Ni : nonempty i /\ within i (sr_ivl r)).
  { destruct (chain_in _ _ _ C) as [q [Eq [W N]]]. assert (q = r) by congruence. subst q. tauto. }
  assert (St : starts r0 i).
  { intros p rp Hp Ep W. apply Nt. apply (v_before _ _ _ _ V p); [exact (parent_before p r0 Hp)|].
    exact (chain_parent p rp r0 n i Hp Ep W C). }
  assert (Ql : ~ In (n, i) late) by (intros K; apply Nt; exact (v_late _ _ _ _ V _ K)).
  assert (T : forall b', ms_traced (if b' : bool then write (mk_sr (lo i) (hi i) (s_ml R) (s_mh r)) (add_path n i st) else add_path n i st)
              = (n, i) :: ms_traced st) by (intros []; reflexivity).
  constructor; rewrite ?T.
  - intros m j [E|H]; [|exact (v_chain _ _ _ _ V m j H)]. exists r0. assert (m = n) by congruence. assert (j = i) by congruence. subst. exact C.
  - intros p m j Lp H. right. exact (v_before _ _ _ _ V p m j Lp H).
  - intros m j c rc Hm Ho Hc Ec N. right. destruct Hm as [E|Hm]; [exfalso; apply Ho; left; exact E|].
    apply (v_closed _ _ _ _ V m j c rc Hm); try assumption. intros K; apply Ho; right; exact K.
  - intros o Ho. destruct b.
    + destruct Ho as [<-|Ho].
      * exists r0, n, i. split; [|split; [left; reflexivity|exact Ql]].
        exists R, r. split; [exact ER|]. split; [exact Er|]. split; [exact C|]. split; [apply Hb; reflexivity|]. split; [exact St|reflexivity].
      * destruct (v_out _ _ _ _ V o Ho) as [n0 [m [j [H1 [H2 H3]]]]]. exists n0, m, j. split; [exact H1|]. split; [right; exact H2|exact H3].
    + destruct (v_out _ _ _ _ V o Ho) as [n0 [m [j [H1 [H2 H3]]]]]. exists n0, m, j. split; [exact H1|]. split; [right; exact H2|exact H3].
  - intros m j Hm Hl Sm. destruct Hm as [E|Hm].
    + assert (m = n) by congruence. assert (j = i) by congruence. subst m j.
      apply Hb in Sm. subst b. eexists _, r. split; [left; reflexivity|]. split; [exact Er|]. split; [|reflexivity].
      apply ivl_eq; reflexivity.
    + destruct (v_all _ _ _ _ V m j Hm Hl Sm) as [o [q [H1 H2]]]. exists o, q. split; [|exact H2].
      destruct b; [right|]; exact H1.
  - intros p Hp. right. exact (v_late _ _ _ _ V p Hp).
  - pose proof (v_nodup _ _ _ _ V) as ND. destruct b; [|exact ND]. cbn [write ms_out add_path]. constructor; [|exact ND].
    intros Ho. destruct (v_out _ _ _ _ V _ Ho) as [n0 [m [j [[q0 [q [E1 [E2 [C2 [_ [_ E3]]]]]]] [H2 _]]]]].
    assert (Ej : j = i) by (apply ivl_eq; [assert (lo i = lo j) by congruence|assert (hi i = hi j) by congruence]; congruence).
    subst j. assert (Em : s_mh r = s_mh q) by congruence.
    destruct (chain_in _ _ _ C2) as [q' [Eq' [W' _]]]. assert (q' = q) by congruence. subst q'.
    assert (n = m) by (apply (node_unique n m r q i Er E2 Em); tauto). subst m. contradiction.
Qed.

(* closing a pair all of whose children are traced *)
Lemma close_inv r0 open late st n i : sinv r0 ((n, i) :: open) late st ->
  (forall c rc, In c (kids edges n) -> nth_error ns c = Some rc -> nonempty (inter i (sr_ivl rc)) -> In (c, inter i (sr_ivl rc)) (ms_traced st)) ->
  sinv r0 open late st.
Proof.
  intros [V1 V2 V3 V4 V5 V6 V7] H. constructor; try assumption.
  intros m j c rc Hm Ho Hc Ec N.
  assert (D : {(n, i) = (m, j)} + {(n, i) <> (m, j)}) by (repeat decide equality).
  destruct D as [E|E].
  - assert (m = n) by congruence. assert (j = i) by congruence. subst. apply H; assumption.
  - apply (V3 m j c rc); try assumption. intros [K|K]; contradiction.
Qed.

(* ---------- the loop ---------- *)
Inductive reach : config -> config -> Prop :=
| re_one : forall c c', mc_step ns edges c = Some c' -> reach c c'
| re_more : forall c c1 c', mc_step ns edges c = Some c1 -> mc_done edges c1 = false -> reach c1 c' -> reach c c'.
Lemma reach_trans a b c : reach a b -> mc_done edges b = false -> reach b c -> reach a c.
Proof.
  intros H. induction H as [x y E|x y z E D H IH]; intros Db Hc.
  - exact (re_more x y c E Db Hc).
  - exact (re_more x y c E D (IH Db Hc)).
Qed.
Lemma reach_loop a b : reach a b -> mc_done edges b = true -> exists k, forall fuel, (k <= fuel)%nat -> mc_loop fuel ns edges a = Some (c_st b).
Proof.
  intros H Db. induction H as [x y E|x y z E D H IH].
  - exists 1%nat. intros fuel L. destruct fuel as [|fuel]; [lia|]. cbn [mc_loop]. rewrite E. cbn [bind]. rewrite Db. reflexivity.
  - destruct (IH Db) as [k Hk]. exists (S k). intros fuel L. destruct fuel as [|fuel]; [lia|]. cbn [mc_loop]. rewrite E. cbn [bind].
    rewrite D. apply Hk. lia.
Qed.
(* going on after a child has been dealt with *)
Definition nxt (r nd : srect) : srect :=
  mk_sr (lo (inter (sr_ivl r) (sr_ivl nd))) (hi (inter (sr_ivl r) (sr_ivl nd))) (s_ml r) (s_mh nd).
Lemma nxt_ivl r nd : sr_ivl (nxt r nd) = inter (sr_ivl r) (sr_ivl nd).
Proof. reflexivity. Qed.
Definition kid (n it : nat) : nat := nth it (kids edges n) 0%nat.
Lemma kid_error n it : (it < length (kids edges n))%nat -> nth_error (kids edges n) it = Some (kid n it).
Proof. intros H. apply nth_error_nth'. exact H. Qed.
Lemma kid_in n it : (it < length (kids edges n))%nat -> In (kid n it) (kids edges n).
Proof. intros H. apply nth_In. exact H. Qed.
Definition retc (f : frame) (stack : list frame) (nd : srect) (st : mstate) : config :=
  let n := f_node f in let r := f_rect f in let it := S (f_itr f) in
  if Nat.eqb it (length (kids edges n)) then mk_cfg stack n r it st
  else mk_cfg (mk_fr n r it :: stack) (kid n it) (nxt r nd) 0 st.
Definition vframe (f : frame) (nd : srect) : Prop :=
  nth_error ns (f_node f) = Some nd /\ (f_itr f < length (kids edges (f_node f)))%nat /\
  nonempty (inter (sr_ivl (f_rect f)) (sr_ivl nd)).

(* nothing new at the node: the frame on top is resumed *)
Lemma step_pop f S nd c rc rect itr st : vframe f nd -> nth_error ns c = Some rc ->
  (nonempty (inter (sr_ivl rect) (sr_ivl rc)) -> In (c, inter (sr_ivl rect) (sr_ivl rc)) (ms_traced st)) ->
  mc_step ns edges (mk_cfg (f :: S) c rect itr st) = Some (retc f S nd st).
Proof.
  intros [F1 [F2 F3]] Ec T. unfold mc_step. rewrite Ec. cbn [bind].
  assert (Y : exists b j, intersect_i (sr_ivl rect) (sr_ivl rc) false = (b, j) /\ b && negb (traced st c j) = false).
  { assert (D : nonempty (inter (sr_ivl rect) (sr_ivl rc)) \/ ~ nonempty (inter (sr_ivl rect) (sr_ivl rc))) by (unfold nonempty; lia).
    destruct D as [D|D].
    - eexists _, _. split; [apply (intersect_yes _ _ D)|]. rewrite (proj2 (traced_spec st c _) (T D)). reflexivity.
    - eexists _, _. split; [apply (intersect_no _ _ D)|]. reflexivity. }
  destruct Y as [b [j [E1 E2]]]. rewrite E1. rewrite <- andb_assoc, E2, andb_false_r. cbn [bind].
  unfold retc. destruct f as [n r it]. cbn [f_node f_rect f_itr] in *.
  replace (Nat.eqb it (length (kids edges n))) with false by (symmetry; apply Nat.eqb_neq; lia).
  destruct (Nat.eqb_spec (Datatypes.S it) (length (kids edges n))) as [E|E]; [reflexivity|].
  rewrite F1. cbn [bind]. rewrite (kid_error n (Datatypes.S it)) by lia. cbn [bind].
  rewrite (intersect_yes _ _ F3). reflexivity.
Qed.
(* a new interval at a node *)
Lemma step_new S c rc rect st : nth_error ns c = Some rc -> nonempty (inter (sr_ivl rect) (sr_ivl rc)) ->
  ~ In (c, inter (sr_ivl rect) (sr_ivl rc)) (ms_traced st) ->
  exists b, (b = true <-> stops c (inter (sr_ivl rect) (sr_ivl rc))) /\
    let st1 := if b then write (nxt rect rc) (add_path c (inter (sr_ivl rect) (sr_ivl rc)) st)
               else add_path c (inter (sr_ivl rect) (sr_ivl rc)) st in
    ((0 < length (kids edges c))%nat -> mc_step ns edges (mk_cfg S c rect 0 st) =
        Some (mk_cfg (mk_fr c rect 0 :: S) (kid c 0) (nxt rect rc) 0 st1)) /\
    (length (kids edges c) = 0%nat -> forall f S' nd, S = f :: S' -> vframe f nd ->
        mc_step ns edges (mk_cfg S c rect 0 st) = Some (retc f S' nd st1)) /\
    (length (kids edges c) = 0%nat -> S = [] -> mc_step ns edges (mk_cfg S c rect 0 st) = Some (mk_cfg [] c rect 0 st1)).
Proof.
  intros Ec N T. destruct (no_child_spec c (inter (sr_ivl rect) (sr_ivl rc))) as [b [Eb Hb]].
  exists b. split; [exact (Hb N)|]. cbv zeta. unfold mc_step. rewrite Ec. cbn [bind].
  rewrite (intersect_yes _ _ N).
  assert (Et : traced st c (inter (sr_ivl rect) (sr_ivl rc)) = false).
  { destruct (traced st c _) eqn:E; [|reflexivity]. apply traced_spec in E. contradiction. }
  rewrite Et. cbn [negb andb]. rewrite !andb_true_r, Eb. cbn [bind]. split; [|split].
  - intros L. replace (Nat.eqb 0 (length (kids edges c))) with false by (symmetry; apply Nat.eqb_neq; lia). cbn [negb].
    rewrite (kid_error c 0 L). cbn [bind]. reflexivity.
  - intros L f S' nd -> [F1 [F2 F3]]. rewrite L. change (Nat.eqb 0 0) with true. cbn [negb]. unfold retc. destruct f as [n r it]. cbn [f_node f_rect f_itr] in *.
    replace (Nat.eqb it (length (kids edges n))) with false by (symmetry; apply Nat.eqb_neq; lia).
    destruct (Nat.eqb_spec (Datatypes.S it) (length (kids edges n))) as [E|E]; [reflexivity|].
    rewrite F1. cbn [bind]. rewrite (kid_error n (Datatypes.S it)) by lia. cbn [bind].
    rewrite (intersect_yes _ _ F3). reflexivity.
  - intros L ->. rewrite L. change (Nat.eqb 0 0) with true. cbn [negb]. reflexivity.
Qed.

Definition visited (r0 : nat) (open late : list (nat * ivl)) (st : mstate) (c : nat) (i : ivl) (st' : mstate) : Prop :=
  sinv r0 open late st' /\ grows st st' /\ (nonempty i -> In (c, i) (ms_traced st')).
(* a visit from inside the loop *)
Definition visits (c : nat) : Prop := forall rc rect f S nd st r0 R open late,
  nth_error ns c = Some rc -> vframe f nd -> sinv r0 open late st -> nth_error ns r0 = Some R -> s_ml rect = s_ml R ->
  (nonempty (inter (sr_ivl rect) (sr_ivl rc)) -> chain r0 c (inter (sr_ivl rect) (sr_ivl rc))) ->
  exists st', reach (mk_cfg (f :: S) c rect 0 st) (retc f S nd st') /\
    visited r0 open late st c (inter (sr_ivl rect) (sr_ivl rc)) st'.

Lemma children_ok n nd r r0 R open late S : (forall c, In c (kids edges n) -> visits c) ->
  nth_error ns n = Some nd -> nonempty (inter (sr_ivl r) (sr_ivl nd)) -> nth_error ns r0 = Some R -> s_ml r = s_ml R ->
  chain r0 n (inter (sr_ivl r) (sr_ivl nd)) ->
  forall rem it st, (it + Datatypes.S rem = length (kids edges n))%nat -> sinv r0 open late st ->
  exists st', reach (mk_cfg (mk_fr n r it :: S) (kid n it) (nxt r nd) 0 st) (mk_cfg S n r (length (kids edges n)) st') /\
    sinv r0 open late st' /\ grows st st' /\
    forall j rc, (it <= j < length (kids edges n))%nat -> nth_error ns (kid n j) = Some rc ->
      nonempty (inter (inter (sr_ivl r) (sr_ivl nd)) (sr_ivl rc)) ->
      In (kid n j, inter (inter (sr_ivl r) (sr_ivl nd)) (sr_ivl rc)) (ms_traced st').
Proof.
  intros HV En Ne ER Em C. induction rem as [|rem IH]; intros it st L V.
  - assert (Hin : In (kid n it) (kids edges n)) by (apply kid_in; lia).
    destruct (proj1 (KIDS n (kid n it)) Hin) as [rc [b [Erc _]]].
    destruct (HV (kid n it) Hin rc (nxt r nd) (mk_fr n r it) S nd st r0 R open late) as [st' [Hr [V' [G' T']]]]; try assumption.
    { split; [exact En|]. split; [cbn [f_node f_itr]; lia|exact Ne]. }
    { intros N. rewrite nxt_ivl in *. apply (ch_step r0 n); assumption. }
    exists st'. split.
    { unfold retc in Hr. cbn [f_node f_rect f_itr] in Hr.
      replace (Nat.eqb (Datatypes.S it) (length (kids edges n))) with true in Hr by (symmetry; apply Nat.eqb_eq; lia).
      replace (Datatypes.S it) with (length (kids edges n)) in Hr by lia. exact Hr. }
    split; [exact V'|]. split; [exact G'|]. intros j rj Lj Ej Nj. assert (j = it) by lia. subst j.
    assert (rj = rc) by congruence. subst rj. rewrite nxt_ivl in T'. apply T'. exact Nj.
  - assert (Hin : In (kid n it) (kids edges n)) by (apply kid_in; lia).
    destruct (proj1 (KIDS n (kid n it)) Hin) as [rc [b [Erc _]]].
    destruct (HV (kid n it) Hin rc (nxt r nd) (mk_fr n r it) S nd st r0 R open late) as [st1 [Hr [V1 [G1 T1]]]]; try assumption.
    { split; [exact En|]. split; [cbn [f_node f_itr]; lia|exact Ne]. }
    { intros N. rewrite nxt_ivl in *. apply (ch_step r0 n); assumption. }
    unfold retc in Hr. cbn [f_node f_rect f_itr] in Hr.
    replace (Nat.eqb (Datatypes.S it) (length (kids edges n))) with false in Hr by (symmetry; apply Nat.eqb_neq; lia).
    destruct (IH (Datatypes.S it) st1) as [st' [Hr2 [V2 [G2 T2]]]]; [lia|exact V1|].
    exists st'. split; [exact (reach_trans _ _ _ Hr eq_refl Hr2)|]. split; [exact V2|].
    split; [intros p Hp; apply G2, G1, Hp|]. intros j rj Lj Ej Nj.
    destruct (Nat.eq_dec j it) as [->|N]; [|apply T2; [lia|exact Ej|exact Nj]].
    assert (rj = rc) by congruence. subst rj. rewrite nxt_ivl in T1. apply G2, T1. exact Nj.
Qed.

Lemma kid_index n c : In c (kids edges n) -> exists j, (j < length (kids edges n))%nat /\ kid n j = c.
Proof. intros H. apply (In_nth _ _ 0%nat) in H. destruct H as [j [H1 H2]]. exists j. tauto. Qed.

(* the children of a node whose pair has just been added *)
Lemma expand_ok n nd r r0 R open late S st : (forall c, In c (kids edges n) -> visits c) ->
  nth_error ns n = Some nd -> nonempty (inter (sr_ivl r) (sr_ivl nd)) -> nth_error ns r0 = Some R -> s_ml r = s_ml R ->
  chain r0 n (inter (sr_ivl r) (sr_ivl nd)) -> (0 < length (kids edges n))%nat ->
  sinv r0 ((n, inter (sr_ivl r) (sr_ivl nd)) :: open) late st ->
  exists st', reach (mk_cfg (mk_fr n r 0 :: S) (kid n 0) (nxt r nd) 0 st) (mk_cfg S n r (length (kids edges n)) st') /\
    sinv r0 open late st' /\ grows st st'.
Proof.
  intros HV En Ne ER Em C L V.
  destruct (children_ok n nd r r0 R ((n, inter (sr_ivl r) (sr_ivl nd)) :: open) late S HV En Ne ER Em C (length (kids edges n) - 1)%nat 0%nat st) as [st' [Hr [V' [G T]]]];
    [lia|exact V|].
  exists st'. split; [exact Hr|]. split; [|exact G]. apply (close_inv _ _ _ _ _ _ V').
  intros c rc Hc Ec Nc. destruct (kid_index n c Hc) as [j [Lj <-]]. apply T; [lia|exact Ec|exact Nc].
Qed.

Lemma visit_ok M : (forall i a, nth_error ns i = Some a -> s_mh a <= M) -> forall m c rc, (Z.to_nat (M - s_mh rc) < m)%nat ->
  nth_error ns c = Some rc -> visits c.
Proof.
  intros HM. induction m as [|m IH]; intros c rc Lm Ec; [lia|].
  intros rc' rect f S nd st r0 R open late Ec' F V ER Em HC. assert (rc' = rc) by congruence. subst rc'. clear Ec'.
  assert (HV : forall k, In k (kids edges c) -> visits k).
  { intros k Hk. apply KIDS in Hk. destruct Hk as [a [b [Ea [Eb [P1 _]]]]]. assert (b = rc) by congruence. subst b.
    apply (IH k a); [|exact Ea]. destruct (no_ne ns OK k a Ea) as [_ Na]. pose proof (HM k a Ea). pose proof (HM c rc Ec). lia. }
  set (i := inter (sr_ivl rect) (sr_ivl rc)) in *.
  assert (D : nonempty i \/ ~ nonempty i) by (unfold nonempty; lia).
  assert (DT : In (c, i) (ms_traced st) \/ ~ In (c, i) (ms_traced st)).
  { destruct (traced st c i) eqn:E; [left; apply traced_spec, E|right; intros H; apply traced_spec in H; congruence]. }
  assert (Stay : (nonempty i -> In (c, i) (ms_traced st)) ->
    exists st', reach (mk_cfg (f :: S) c rect 0 st) (retc f S nd st') /\ visited r0 open late st c i st').
  { intros T. exists st. split; [apply re_one, (step_pop f S nd c rc rect 0 st F Ec T)|].
    split; [exact V|]. split; [intros p Hp; exact Hp|exact T]. }
  destruct D as [D|D]; [|apply Stay; tauto]. destruct DT as [DT|DT]; [apply Stay; tauto|]. clear Stay.
  destruct (step_new (f :: S) c rc rect st Ec D DT) as [b [Hb [S1 [S2 _]]]]. fold i in Hb, S1, S2.
  set (st1 := if b then write (nxt rect rc) (add_path c i st) else add_path c i st) in *.
  assert (V1 : sinv r0 ((c, i) :: open) late st1).
  { unfold st1, nxt. fold i. rewrite Em. exact (add_inv r0 open late st c i b R V DT (HC D) ER Hb rc Ec). }
  assert (G1 : grows st st1 /\ In (c, i) (ms_traced st1)).
  { unfold st1, grows. destruct b; cbn [write add_path ms_traced In]; tauto. }
  destruct (Nat.eq_dec (length (kids edges c)) 0) as [L|L].
  - exists st1. split; [apply re_one, (S2 L f S nd eq_refl F)|]. split; [|split; [apply G1|intros _; apply G1]].
    apply (close_inv _ _ _ _ _ _ V1). intros k rk Hk. destruct (kids edges c); [destruct Hk|cbn [length] in L; lia].
  - destruct (expand_ok c rc rect r0 R open late (f :: S) st1 HV Ec D ER Em (HC D) ltac:(lia) V1) as [st2 [Hr [V2 G2]]].
    exists st2. split.
    + apply (re_more _ _ _ (S1 ltac:(lia)) eq_refl).
      apply (reach_trans _ _ _ Hr eq_refl). apply re_one. apply (step_pop f S nd c rc rect _ st2 F Ec).
      intros _. apply G2, G1.
    + split; [exact V2|]. split; [intros p Hp; apply G2, G1, Hp|]. intros _. apply G2, G1.
Qed.

Lemma all_visits c rc : nth_error ns c = Some rc -> visits c.
Proof.
  intros Ec. assert (B : exists M, forall i a, nth_error ns i = Some a -> s_mh a <= M).
  { clear. induction ns as [|r l [M HM]]; [exists 0; intros [|i] a E; discriminate E|].
    exists (Z.max (s_mh r) M). intros [|i] a E; cbn [nth_error] in E; [assert (a = r) by congruence; subst; lia|].
    specialize (HM i a E). lia. }
  destruct B as [M HM]. exact (visit_ok M HM (S (Z.to_nat (M - s_mh rc))) c rc (Nat.lt_succ_diag_r _) Ec).
Qed.

(* the loop entered from a root *)
Lemma loop_ok c rc rect st r0 R open late : nth_error ns c = Some rc -> sinv r0 open late st -> nth_error ns r0 = Some R ->
  s_ml rect = s_ml R -> nonempty (inter (sr_ivl rect) (sr_ivl rc)) -> chain r0 c (inter (sr_ivl rect) (sr_ivl rc)) ->
  exists st' k, (forall fuel, (k <= fuel)%nat -> mc_loop fuel ns edges (mk_cfg [] c rect 0 st) = Some st') /\
    visited r0 open late st c (inter (sr_ivl rect) (sr_ivl rc)) st'.
Proof.
  intros Ec V ER Em D C.
  assert (HV : forall k, In k (kids edges c) -> visits k).
  { intros k Hk. apply KIDS in Hk. destruct Hk as [a [b [Ea _]]]. exact (all_visits k a Ea). }
  assert (Fin : forall st' it, it = length (kids edges c) -> mc_done edges (mk_cfg [] c rect it st') = true).
  { intros st' it ->. unfold mc_done. cbn [c_stack c_itr c_node]. apply Nat.eqb_refl. }
  set (i := inter (sr_ivl rect) (sr_ivl rc)) in *.
  assert (DT : In (c, i) (ms_traced st) \/ ~ In (c, i) (ms_traced st)).
  { destruct (traced st c i) eqn:E; [left; apply traced_spec, E|right; intros H; apply traced_spec in H; congruence]. }
  destruct DT as [DT|DT].
  - (* traced before: only the other children are looked at *)
    assert (E0 : mc_step ns edges (mk_cfg [] c rect 0 st) =
      if Nat.eqb 0 (length (kids edges c)) then Some (mk_cfg [] c rect 0 st)
      else if Nat.eqb 1 (length (kids edges c)) then Some (mk_cfg [] c rect 1 st)
      else do child <- nth_error (kids edges c) 1; Some (mk_cfg [mk_fr c rect 1] child (nxt rect rc) 0 st)).
    { unfold mc_step. rewrite Ec. cbn [bind]. rewrite (intersect_yes _ _ D). fold i. rewrite (proj2 (traced_spec st c i) DT).
      cbn [negb andb]. rewrite andb_false_r. cbn [bind]. reflexivity. }
    destruct (Nat.eqb_spec 0 (length (kids edges c))) as [L0|L0].
    { destruct (reach_loop _ _ (re_one _ _ E0) (Fin st 0%nat L0)) as [k Hk]. exists st, k. split; [exact Hk|].
      split; [exact V|]. split; [intros p Hp; exact Hp|tauto]. }
    destruct (Nat.eqb_spec 1 (length (kids edges c))) as [L1|L1].
    { destruct (reach_loop _ _ (re_one _ _ E0) (Fin st 1%nat L1)) as [k Hk]. exists st, k. split; [exact Hk|].
      split; [exact V|]. split; [intros p Hp; exact Hp|tauto]. }
    rewrite (kid_error c 1) in E0 by lia. cbn [bind] in E0.
    destruct (children_ok c rc rect r0 R open late [] HV Ec D ER Em C (length (kids edges c) - 2)%nat 1%nat st) as [st' [Hr [V' [G _]]]];
      [lia|exact V|].
    destruct (reach_loop _ _ (re_more _ _ _ E0 eq_refl Hr) (Fin st' _ eq_refl)) as [k Hk]. exists st', k. split; [exact Hk|].
    split; [exact V'|]. split; [exact G|]. intros _. apply G, DT.
  - destruct (step_new [] c rc rect st Ec D DT) as [b [Hb [S1 [_ S3]]]]. fold i in Hb, S1, S3.
    set (st1 := if b then write (nxt rect rc) (add_path c i st) else add_path c i st) in *.
    assert (V1 : sinv r0 ((c, i) :: open) late st1).
    { unfold st1, nxt. fold i. rewrite Em. exact (add_inv r0 open late st c i b R V DT C ER Hb rc Ec). }
    assert (G1 : grows st st1 /\ In (c, i) (ms_traced st1)).
    { unfold st1, grows. destruct b; cbn [write add_path ms_traced In]; tauto. }
    destruct (Nat.eq_dec (length (kids edges c)) 0) as [L|L].
    + destruct (reach_loop _ _ (re_one _ _ (S3 L eq_refl)) (Fin st1 _ (eq_sym L))) as [k Hk]. exists st1, k. split; [exact Hk|].
      split; [|split; [apply G1|intros _; apply G1]].
      apply (close_inv _ _ _ _ _ _ V1). intros j rj Hj. destruct (kids edges c); [destruct Hj|cbn [length] in L; lia].
    + destruct (expand_ok c rc rect r0 R open late [] st1 HV Ec D ER Em C ltac:(lia) V1) as [st2 [Hr [V2 G2]]].
      assert (Hr' : reach (mk_cfg [] c rect 0 st) (mk_cfg [] c rect (length (kids edges c)) st2))
        by exact (re_more _ _ _ (S1 ltac:(lia)) eq_refl Hr).
      destruct (reach_loop _ _ Hr' (Fin st2 _ eq_refl)) as [k Hk]. exists st2, k. split; [exact Hk|].
      split; [exact V2|]. split; [intros p Hp; apply G2, G1, Hp|]. intros _. apply G2, G1.
Qed.

(* ---------- one root ---------- *)
Lemma mc_children_ok n nd open late : nth_error ns n = Some nd -> forall ks st, (forall k, In k ks -> In k (kids edges n)) ->
  sinv n open late st ->
  exists st' k0, (forall fuel, (k0 <= fuel)%nat -> mc_children fuel ns edges nd ks st = Some st') /\ sinv n open late st' /\ grows st st' /\
    forall k rk, In k ks -> nth_error ns k = Some rk -> In (k, inter (sr_ivl nd) (sr_ivl rk)) (ms_traced st').
Proof.
  intros En. induction ks as [|k ks IH]; intros st Hk V.
  - exists st, 0%nat. split; [reflexivity|]. split; [exact V|]. split; [intros p Hp; exact Hp|intros k rk []].
  - pose proof (Hk k (or_introl eq_refl)) as Hin. destruct (proj1 (KIDS n k) Hin) as [rk [b [Ek [Eb [P1 [P2 P3]]]]]].
    assert (b = nd) by congruence. subst b.
    assert (D : nonempty (inter (sr_ivl nd) (sr_ivl rk))).
    { destruct (no_ne ns OK n nd En) as [N1 _]. destruct (no_ne ns OK k rk Ek) as [N2 _].
      unfold nonempty, inter, sr_ivl. cbn [lo hi]. lia. }
    destruct (loop_ok k rk nd st n nd open late Ek V En eq_refl D) as [st1 [k1 [H1 [V1 [G1 T1]]]]].
    { apply (ch_step n n); [constructor; exact En|exact Hin|exact Ek|exact D]. }
    destruct (IH st1) as [st2 [k2 [H2 [V2 [G2 T2]]]]]; [intros j Hj; apply Hk; right; exact Hj|exact V1|].
    exists st2, (Nat.max k1 k2). split.
    { intros fuel L. cbn [mc_children]. rewrite H1 by lia. cbn [bind]. apply H2. lia. }
    split; [exact V2|]. split; [intros p Hp; apply G2, G1, Hp|].
    intros j rj [<-|Hj] Ej; [|exact (T2 j rj Hj Ej)]. assert (rj = rk) by congruence. subst rj. apply G2, T1, D.
Qed.

Lemma closed_chain r0 late st n0 n i : sinv r0 [] late st -> (forall r, nth_error ns n0 = Some r -> In (n0, sr_ivl r) (ms_traced st)) ->
  chain n0 n i -> In (n, i) (ms_traced st).
Proof.
  intros V H C. induction C as [r E|m j c rc C IH K E N]; [exact (H r E)|].
  apply (v_closed _ _ _ _ V m j c rc IH); [intros []|exact K|exact E|exact N].
Qed.
Lemma root_done n nd late st : nth_error ns n = Some nd -> sinv n [] late st -> In (n, sr_ivl nd) (ms_traced st) -> late = [] ->
  sinv (S n) [] [] st.
Proof.
  intros En V T ->. pose proof V as [V1 V2 V3 V4 V5 V6 V7]. constructor; try assumption.
  intros p m j Lp C. destruct (Nat.eq_dec p n) as [->|N]; [|apply (V2 p); [lia|exact C]].
  apply (closed_chain n [] st n m j V); [|exact C]. intros r Er. assert (r = nd) by congruence. subst r. exact T.
Qed.
Lemma sr_eta r : mk_sr (lo (sr_ivl r)) (hi (sr_ivl r)) (s_ml r) (s_mh r) = r.
Proof. destruct r; reflexivity. Qed.

Lemma root_ok n nd st : nth_error ns n = Some nd -> sinv n [] [] st ->
  exists st' k0, (forall fuel, (k0 <= fuel)%nat -> mc_root fuel ns edges n st = Some st') /\ sinv (S n) [] [] st'.
Proof.
  intros En V. unfold mc_root. rewrite En. cbn [bind].
  destruct (traced st n (sr_ivl nd)) eqn:Et.
  { exists st, 0%nat. split; [reflexivity|]. apply (root_done n nd [] st En V); [apply traced_spec, Et|reflexivity]. }
  assert (Nt : ~ In (n, sr_ivl nd) (ms_traced st)) by (intros H; apply traced_spec in H; congruence).
  assert (C : chain n n (sr_ivl nd)) by (constructor; exact En).
  assert (Nn : nonempty (sr_ivl nd)) by (destruct (chain_in _ _ _ C) as [r [_ [_ N]]]; exact N).
  destruct (kids edges n) as [|k ks] eqn:EK.
  - (* no children *)
    eexists _, 0%nat. split; [reflexivity|].
    pose proof (add_inv n [] [] st n (sr_ivl nd) true nd V Nt C En) as A.
    assert (St : true = true <-> stops n (sr_ivl nd)).
    { split; [|reflexivity]. intros _ c rc Hc. rewrite EK in Hc. destruct Hc. }
    specialize (A St nd En). cbn beta iota in A. rewrite sr_eta in A.
    apply (root_done n nd [] _ En); [|left; reflexivity|reflexivity].
    apply (close_inv _ _ _ _ _ _ A). intros c rc Hc. rewrite EK in Hc. destruct Hc.
  - rewrite <- EK.
    destruct (no_child_spec n (sr_ivl nd)) as [b [Eb Hb]]. specialize (Hb Nn).
    (* the pair is added now and written at the end *)
    assert (V1 : sinv n [(n, sr_ivl nd)] [(n, sr_ivl nd)] (add_path n (sr_ivl nd) st)).
    { pose proof V as [W1 W2 W3 W4 W5 W6 W7]. constructor; cbn [add_path ms_traced ms_out].
      - intros m j [E|H]; [|exact (W1 m j H)]. exists n. assert (m = n) by congruence. assert (j = sr_ivl nd) by congruence. subst. exact C.
      - intros p m j Lp H. right. exact (W2 p m j Lp H).
      - intros m j c rc [E|Hm] Ho Hc Ec N; [exfalso; apply Ho; left; exact E|]. right.
        apply (W3 m j c rc Hm); try assumption. intros [].
      - intros o Ho. destruct (W4 o Ho) as [n0 [m [j [H1 [H2 H3]]]]]. exists n0, m, j. split; [exact H1|].
        split; [right; exact H2|]. intros [E|[]]. apply Nt. rewrite E. exact H2.
      - intros m j [E|Hm] Hl Sm; [exfalso; apply Hl; left; exact E|]. apply W5; try assumption. intros [].
      - intros p [<-|[]]. left; reflexivity.
      - exact W7. }
    destruct (mc_children_ok n nd _ _ En (kids edges n) _ (fun k Hk => Hk) V1) as [st2 [k0 [H2 [V2 [G2 T2]]]]].
    exists (if b then write nd st2 else st2), k0. split.
    { intros fuel L. rewrite (H2 fuel L). cbn [bind]. rewrite Eb. reflexivity. }
    assert (T : In (n, sr_ivl nd) (ms_traced st2)) by (apply G2; left; reflexivity).
    assert (V3 : sinv n [] [(n, sr_ivl nd)] st2).
    { apply (close_inv _ _ _ _ _ _ V2). intros c rc Hc Ec _. exact (T2 c rc Hc Ec). }
    assert (Ts : ms_traced (if b then write nd st2 else st2) = ms_traced st2) by (destruct b; reflexivity).
    apply (root_done n nd [] _ En); [|rewrite Ts; exact T|reflexivity].
    pose proof V3 as [W1 W2 W3 W4 W5 W6 W7].
    assert (Sn : starts n (sr_ivl nd)).
    { intros p rp Hp Ep W. apply Nt. apply (v_before _ _ _ _ V p); [exact (parent_before p n Hp)|].
      exact (chain_parent p rp n n (sr_ivl nd) Hp Ep W C). }
    constructor; rewrite ?Ts.
    + exact W1.
    + exact W2.
    + exact W3.
    + intros o Ho. destruct b.
      * destruct Ho as [<-|Ho].
        -- exists n, n, (sr_ivl nd). split; [|split; [exact T|intros []]]. exists nd, nd. split; [exact En|]. split; [exact En|].
           split; [exact C|]. split; [apply Hb; reflexivity|]. split; [exact Sn|symmetry; apply sr_eta].
        -- destruct (W4 o Ho) as [n0 [m [j [Q1 [Q2 _]]]]]. exists n0, m, j. split; [exact Q1|]. split; [exact Q2|intros []].
      * destruct (W4 o Ho) as [n0 [m [j [Q1 [Q2 _]]]]]. exists n0, m, j. split; [exact Q1|]. split; [exact Q2|intros []].
    + intros m j Hm _ Sm.
      assert (D : {(n, sr_ivl nd) = (m, j)} + {(n, sr_ivl nd) <> (m, j)}) by (repeat decide equality).
      destruct D as [D|D].
      * assert (m = n) by congruence. assert (j = sr_ivl nd) by congruence. subst m j.
        apply Hb in Sm. subst b. exists nd, nd. split; [left; reflexivity|]. split; [exact En|]. split; reflexivity.
      * destruct (W5 m j Hm) as [o [q [Q1 Q2]]]; [intros [K|[]]; contradiction|exact Sm|].
        exists o, q. split; [destruct b; [right|]; exact Q1|exact Q2].
    + intros p [].
    + destruct b; [|exact W7]. cbn [write ms_out]. constructor; [|exact W7].
      intros Ho. destruct (W4 _ Ho) as [n0 [m [j [[q0 [q [E1 [E2 [C2 [_ [_ E3]]]]]]] [Q2 Q3]]]]].
      assert (Ej : j = sr_ivl nd) by (apply ivl_eq; rewrite E3; reflexivity). subst j.
      assert (Em : s_mh nd = s_mh q) by (rewrite E3; reflexivity).
      destruct (chain_in _ _ _ C2) as [q' [Eq' [W' _]]]. assert (q' = q) by congruence. subst q'.
      assert (n = m) by (apply (node_unique n m nd q (sr_ivl nd) En E2 Em); [split; lia|exact W'|exact Nn]). subst m.
      apply Q3. left; reflexivity.
Qed.

Lemma roots_ok : forall k n st, (n + k = length ns)%nat -> sinv n [] [] st ->
  exists st' k0, (forall fuel, (k0 <= fuel)%nat -> mc_roots fuel ns edges (seq n k) st = Some st') /\ sinv (length ns) [] [] st'.
Proof.
  induction k as [|k IH]; intros n st L V.
  - exists st, 0%nat. split; [reflexivity|]. replace (length ns) with n by lia. exact V.
  - destruct (nth_error ns n) as [nd|] eqn:En; [|apply nth_error_None in En; lia].
    destruct (root_ok n nd st En V) as [st1 [k1 [H1 V1]]].
    destruct (IH (S n) st1) as [st2 [k2 [H2 V2]]]; [lia|exact V1|].
    exists st2, (Nat.max k1 k2). split; [|exact V2]. intros fuel Lf. cbn [seq mc_roots]. rewrite H1 by lia. cbn [bind]. apply H2. lia.
Qed.

(* everything that is written, and that it is everything *)
Theorem walk_ok : exists st k0, (forall fuel, (k0 <= fuel)%nat -> mc_roots fuel ns edges (seq 0 (length ns)) (mk_ms [] []) = Some st) /\
  NoDup (ms_out st) /\ (forall o, In o (ms_out st) -> exists n0 n i, seen n0 n i o) /\
  (forall n0 n i, chain n0 n i -> stops n i -> exists o r, In o (ms_out st) /\ nth_error ns n = Some r /\ sr_ivl o = i /\ s_mh o = s_mh r).
Proof.
  destruct (roots_ok (length ns) 0%nat (mk_ms [] [])) as [st [k0 [H V]]]; [lia| |].
  { constructor; cbn [ms_traced ms_out]; try (intros; contradiction); [intros p n i Lp; lia|constructor]. }
  exists st, k0. split; [exact H|]. split; [exact (v_nodup _ _ _ _ V)|]. split.
  - intros o Ho. destruct (v_out _ _ _ _ V o Ho) as [n0 [n [i [S _]]]]. exists n0, n, i. exact S.
  - intros n0 n i C S. apply (v_all _ _ _ _ V n i); [|intros []|exact S].
    apply (v_before _ _ _ _ V n0); [|exact C].
    assert (D : exists r, nth_error ns n0 = Some r).
    { clear -C. induction C as [r E|]; [exists r; exact E|assumption]. }
    destruct D as [r D]. apply nth_error_Some. congruence.
Qed.
End Walk.
