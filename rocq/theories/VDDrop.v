(* The loop that removes the degenerate edges. *)
From Verif Require Import Base Units Outcome XIntModel VorSpec VorModel VDModel VDSpec VDMem VDInsert VDOrbit VDBuild.
From Coq Require Import Relations.
Local Open Scope nat_scope.

(* the edges that start at a vertex form one cycle of rot_next *)
Definition single (P : nat -> bool) (E : list dart) : Prop := forall i v, P i = true -> vx E i = Some v ->
  exists l, chain (rot E) i l (Some i) /\ NoDup (i :: l) /\ (forall y, In y (i :: l) -> P y = true) /\ forall j, P j = true -> vx E j = Some v -> In j (i :: l).
Lemma single_ext P Q E : (forall i, P i = Q i) -> single P E -> single Q E.
Proof.
  intros X S i v H K. rewrite <- X in H. destruct (S i v H K) as [l [L1 [L2 [L3 L4]]]]. exists l. split; [exact L1|]. split; [exact L2|]. split; [intros y Y; rewrite <- X; auto|intros j J; rewrite <- X in J; auto].
Qed.
Lemma chain_retarget f g z z' : forall l x, chain f x l (Some z) -> ~ In z l -> (forall y, In y (x :: l) -> f y <> Some z -> g y = f y) -> (forall y, In y (x :: l) -> f y = Some z -> g y = z') -> chain g x l z'.
Proof.
  induction l as [|w l IH]; intros x H N G1 G2; cbn [chain] in *; [apply G2; [left; reflexivity|exact H]|]. destruct H as [H1 H2]. split.
  - rewrite G1; [exact H1|left; reflexivity|]. rewrite H1. intros K. apply N. left. congruence.
  - apply IH; [exact H2|intros K; apply N; right; exact K| |]; intros y Y; [apply G1|apply G2]; right; exact Y.
Qed.
Lemma chain_map f g h : forall l x z, chain f x l z -> (forall y, In y (x :: l) -> g (h y) = option_map h (f y)) -> chain g (h x) (map h l) (option_map h z).
Proof.
  induction l as [|w l IH]; intros x z H G; cbn [chain map] in *; [rewrite G by (left; reflexivity); rewrite H; reflexivity|]. destruct H as [H1 H2]. split.
  - rewrite G by (left; reflexivity). rewrite H1. reflexivity.
  - apply IH; [exact H2|]. intros y Y. apply G. right. exact Y.
Qed.
Lemma nodup_map_in {A B : Type} (h : A -> B) l : (forall x y, In x l -> In y l -> h x = h y -> x = y) -> NoDup l -> NoDup (map h l).
Proof.
  induction l as [|a l IH]; intros I N; cbn [map]; [constructor|]. apply NoDup_cons_iff in N. destruct N as [N1 N2]. constructor.
  - intros K. apply in_map_iff in K. destruct K as [x [X1 X2]]. apply N1. replace a with x; [exact X2|]. apply I; [right; exact X2|left; reflexivity|exact X1].
  - apply IH; [|exact N2]. intros x y X Y. apply I; right; assumption.
Qed.
Lemma nodup_join {A : Type} (a b : list A) : NoDup a -> NoDup b -> (forall x, In x a -> ~ In x b) -> NoDup (a ++ b).
Proof.
  induction a as [|x a IH]; intros N1 N2 D; cbn [app]; [exact N2|]. apply NoDup_cons_iff in N1. destruct N1 as [N3 N4]. constructor.
  - rewrite in_app_iff. intros [K|K]; [exact (N3 K)|exact (D x (or_introl eq_refl) K)].
  - apply IH; [exact N4|exact N2|]. intros y Y. apply D. right. exact Y.
Qed.

Section RemoveSingle.
Variables (C V : nat) (P : nat -> bool) (E : list dart) (e v w : nat).
Hypothesis W : wfl C V P E.
Hypothesis PE : P e = true.
Hypothesis VE : vx E e = Some v.
Hypothesis VT : vx E (tw e) = Some w.
Let t := tw e.
Variables (pe pt ne nt : nat).
Hypothesis B1 : pv E e = Some pe.
Hypothesis B2 : pv E t = Some pt.
Hypothesis B3 : nx E e = Some ne.
Hypothesis B4 : nx E t = Some nt.
Variable l : list nat.
Hypothesis CY : chain (rot E) t l (Some t).
Hypothesis ND : NoDup (t :: l).
Hypothesis PL : forall y, In y (t :: l) -> P y = true /\ vx E y = Some w.
Hypothesis LL : length (t :: l) <= length E.
Hypothesis VW : v <> w.
Hypothesis SG : single P E.
Hypothesis CV : forall j, P j = true -> vx E j = Some w -> In j (t :: l).
Let R := removed E v pe pt ne nt l.
Lemma rs_rot y : rot R y = if nt =? y then Some (tw pt) else if ne =? y then Some (tw pe) else rot E y.
Proof.
  unfold rot, R. rewrite (rm_pv C V P E e v W PE _ _ _ _ B1 B2 B3 B4 l). destruct (nt =? y); [reflexivity|]. destruct (ne =? y); reflexivity.
Qed.
Lemma rs_single : single (live_rm P e) R.
Proof.
  destruct (rm_facts _ _ _ _ _ W PE _ _ _ _ B1 B2 B3 B4) as [Q1 [Q2 [Q3 [Q4 [Q5 [Q6 [Q7 Q8]]]]]]].
  destruct (rm_apart _ _ _ _ _ W PE _ _ _ _ B1 B2 B3 B4) as [X1 [X2 [X3 X4]]].
  destruct (rm_rot _ _ _ _ _ W PE _ _ _ _ B1 B2 B3 B4) as [R1 [R2 [R3 R4]]]. fold t in X1, X2, X3, X4, R1, R2, R3, R4, Q5, Q6, Q7, Q8.
  pose proof (l_tw _ _ _ _ W _ PE) as PT. fold t in PT, VT.
  assert (VNE : vx E ne = Some w). { destruct (rot_step _ _ _ _ W _ _ Q3 R3) as [_ [_ [Y _]]]. congruence. }
  assert (VNT : vx E nt = Some v). { destruct (rot_step _ _ _ _ W _ _ Q4 R4) as [_ [_ [Y _]]]. congruence. }
  assert (VX : forall j, vx R j = if mem j l then Some v else vx E j) by (intros j; exact (rm_vx C V P E e v w W pe pt ne nt l PL j)).
  destruct (SG e v PE VE) as [le [CE [NE [PLE CVE]]]].
  destruct le as [|u le']; [exfalso; cbn [chain] in CE; apply X3; apply tw_inj; unfold t; rewrite tw_tw; congruence|]. cbn [chain] in CE. destruct CE as [CE1 CE2].
  assert (U : u = tw pe) by congruence. subst u.
  assert (EL' : exists l', l = tw pt :: l' /\ chain (rot E) (tw pt) l' (Some t)).
  { assert (G : forall m, chain (rot E) t m (Some t) -> exists l', m = tw pt :: l' /\ chain (rot E) (tw pt) l' (Some t)); [|exact (G l CY)].
    intros [|u m] K; cbn [chain] in K; [exfalso; apply X4; apply tw_inj; fold t; congruence|]. destruct K as [K1 K2]. assert (U : u = tw pt) by congruence. subst u. exists m. split; [reflexivity|exact K2]. }
  destruct EL' as [l' [EL CY2]].
  assert (VLE : forall y, In y (tw pe :: le') -> vx E y = Some v /\ P y = true).
  { assert (G : forall k x z, P x = true -> vx E x = Some v -> chain (rot E) x k z -> forall y, In y (x :: k) -> vx E y = Some v /\ P y = true).
    { clear - W. induction k as [|w k IH]; intros x z Hp Hv Hc y Y; cbn [chain] in Hc; [destruct Y as [<-|[]]; tauto|]. destruct Hc as [Hc1 Hc2]. destruct Y as [<-|Y]; [tauto|].
      destruct (rot_step _ _ _ _ W _ _ Hp Hc1) as [Z1 [_ [Z2 _]]]. rewrite Hv in Z2. exact (IH w z Z1 Z2 Hc2 y Y). }
    destruct (rot_step _ _ _ _ W _ _ PE CE1) as [Z1 [_ [Z2 _]]]. rewrite VE in Z2. exact (G _ _ _ Z1 Z2 CE2). }
  apply NoDup_cons_iff in NE. destruct NE as [NE1 NE2]. apply NoDup_cons_iff in ND. destruct ND as [ND1 ND2].
  assert (BASE : chain (rot R) (tw pe) (le' ++ l) (Some (tw pe))).
  { rewrite EL. apply chain_app. split.
    - apply (chain_retarget (rot E) _ e); [exact CE2|intros K; apply NE1; right; exact K| |]; intros y Y F; rewrite rs_rot.
      + destruct (Nat.eqb_spec nt y) as [K|_]; [exfalso; subst y; congruence|]. destruct (Nat.eqb_spec ne y) as [K|_]; [exfalso; subst y; destruct (VLE _ Y); congruence|reflexivity].
      + assert (K : y = nt) by (apply (rot_inj _ _ _ _ W _ _ e); [apply VLE; exact Y|exact Q4|exact F|exact R4]). subst y. rewrite Nat.eqb_refl. reflexivity.
    - apply (chain_retarget (rot E) _ t); [exact CY2|intros K; apply ND1; rewrite EL; right; exact K| |]; intros y Y F; rewrite rs_rot; assert (YL : In y (t :: l)) by (right; rewrite EL; exact Y); destruct (PL _ YL) as [YP YV].
      + destruct (Nat.eqb_spec nt y) as [K|_]; [exfalso; subst y; congruence|]. destruct (Nat.eqb_spec ne y) as [K|_]; [exfalso; subst y; congruence|reflexivity].
      + assert (K : y = ne) by (apply (rot_inj _ _ _ _ W _ _ t); [exact YP|exact Q3|exact F|exact R3]). subst y. rewrite Nat.eqb_refl. destruct (Nat.eqb_spec nt ne) as [Z|_]; [exfalso; congruence|reflexivity]. }
  assert (NDB : NoDup ((tw pe :: le') ++ l)).
  { apply nodup_join; [exact NE2|exact ND2|]. intros x X Y. destruct (VLE _ X) as [Z _]. destruct (PL _ (or_intror Y)) as [_ Z']. congruence. }
  intros i x HI HX. apply live_rm_iff in HI. destruct HI as [HI1 [HI2 HI3]]. fold t in HI3. rewrite VX in HX.
  assert (ALIVE : forall y, In y ((tw pe :: le') ++ l) -> live_rm P e y = true).
  { intros y Y. apply live_rm_iff. fold t. apply in_app_iff in Y. destruct Y as [Y|Y].
    - destruct (VLE _ Y) as [Y1 Y2]. split; [exact Y2|]. split; [intros ->; exact (NE1 Y)|intros ->; congruence].
    - destruct (PL _ (or_intror Y)) as [Y1 Y2]. split; [exact Y1|]. split; [intros ->; congruence|intros ->; exact (ND1 Y)]. }
  destruct (Nat.eq_dec x v) as [->|XV].
  - assert (COV : forall j, live_rm P e j = true -> vx R j = Some v -> In j ((tw pe :: le') ++ l)).
    { intros j J K. apply live_rm_iff in J. destruct J as [J1 [J2 J3]]. rewrite VX in K. destruct (mem_dec j l) as [[M1 M2]|[M1 M2]]; [apply in_app_iff; right; exact M1|]. rewrite M2 in K.
      destruct (CVE j J1 K) as [Y|Y]; [congruence|]. apply in_app_iff. left. exact Y. }
    assert (HI : In i ((tw pe :: le') ++ l)) by (apply COV; [apply live_rm_iff; tauto|rewrite VX; exact HX]).
    change ((tw pe :: le') ++ l) with (tw pe :: (le' ++ l)) in *. destruct HI as [<-|HI].
    + exists (le' ++ l). split; [exact BASE|]. split; [exact NDB|]. split; [exact ALIVE|exact COV].
    + destruct (cycle_turn _ _ _ _ BASE HI) as [l'' [T1 [T2 T3]]]. exists l''. split; [exact T1|]. split; [exact (T3 NDB)|]. split; [intros y Y; apply ALIVE, T2, Y|intros j J K; apply T2; exact (COV j J K)].
  - destruct (mem_dec i l) as [[M1 M2]|[M1 M2]]; rewrite M2 in HX; [congruence|].
    assert (XW : x <> w). { intros ->. destruct (CV i HI1 HX) as [Y|Y]; [congruence|exact (M1 Y)]. }
    destruct (SG i x HI1 HX) as [k [K1 [K2 [K3 K4]]]]. exists k.
    assert (VK : forall y, In y (i :: k) -> vx E y = Some x).
    { assert (G : forall k y0 z, P y0 = true -> vx E y0 = Some x -> chain (rot E) y0 k z -> forall y, In y (y0 :: k) -> vx E y = Some x).
      { clear - W. induction k as [|u k IH]; intros y0 z Hp Hv Hc y Y; cbn [chain] in Hc; [destruct Y as [<-|[]]; tauto|]. destruct Hc as [Hc1 Hc2]. destruct Y as [<-|Y]; [tauto|].
        destruct (rot_step _ _ _ _ W _ _ Hp Hc1) as [Z1 [_ [Z2 _]]]. rewrite Hv in Z2. exact (IH u z Z1 Z2 Hc2 y Y). }
      exact (G _ _ _ HI1 HX K1). }
    split; [|split; [exact K2|split]].
    + apply (chain_ext (rot E)); [|exact K1]. intros y Y. rewrite rs_rot. pose proof (VK y Y) as Z.
      destruct (Nat.eqb_spec nt y) as [Q|_]; [exfalso; subst y; congruence|]. destruct (Nat.eqb_spec ne y) as [Q|_]; [exfalso; subst y; congruence|reflexivity].
    + intros y Y. apply live_rm_iff. pose proof (VK y Y) as Z. split; [exact (K3 y Y)|]. fold t. split; intros ->; congruence.
    + intros j J1 J2. apply live_rm_iff in J1. destruct J1 as [J1 [J3 J4]]. rewrite VX in J2. destruct (mem j l); [congruence|]. exact (K4 j J1 J2).
Qed.
End RemoveSingle.

Section MoveSingle.
Variables (C V : nat) (P : nat -> bool) (E : list dart) (it last : nat).
Hypothesis W : wfl C V P E.
Hypothesis EV1 : Nat.even it = true.
Hypothesis EV2 : Nat.even last = true.
Hypothesis PI : P it = true.
Hypothesis PA : P last = false.
Hypothesis PB : P (S last) = false.
Hypothesis LI : last < it.
Hypothesis NL1 : nx E it <> Some it.
Hypothesis NL2 : nx E (S it) <> Some (S it).
Variables a b : dart.
Hypothesis NA : nth_error E it = Some a.
Hypothesis NB : nth_error E (S it) = Some b.
Hypothesis SG : single P E.
Lemma ms_single : single (live_mv P it last) (moved E it last a b).
Proof.
  intros i v HI HX. rewrite (mv_vx _ _ _ _ _ _ W EV1 EV2 PI PA PB LI a b NA NB) in HX by exact HI.
  pose proof (from_live _ _ _ _ it last W EV1 EV2 PI PA PB i HI) as HF. destruct (SG _ _ HF HX) as [l [L1 [L2 [L3 L4]]]].
  pose proof (to_from P it last EV1 EV2 PI PA PB LI i HI) as TI. remember (from it last i) as k eqn:Hk. clear Hk. subst i.
  exists (map (to it last) l).
  assert (T : forall y, P y = true -> live_mv P it last (to it last y) = true) by (intros y; apply to_live; assumption).
  assert (FT : forall y, P y = true -> from it last (to it last y) = y) by (intros y; apply (from_to P); assumption).
  split; [|split; [|split]].
  - change (Some (to it last k)) with (option_map (to it last) (Some k)).
    apply (chain_map (rot E)); [exact L1|]. intros y Y. pose proof (L3 y Y) as PY. unfold rot. rewrite (mv_pv _ _ _ _ _ _ W EV1 EV2 PI PA PB LI NL1 NL2 a b NA NB) by auto. rewrite FT by exact PY.
    destruct (pv E y) as [q|] eqn:K; cbn [option_map]; [|reflexivity]. destruct (l_pv _ _ _ _ W _ _ PY K) as [PK _]. f_equal. symmetry. exact (to_tw _ _ _ _ _ _ W EV1 EV2 PI PA PB LI q PK).
  - change (NoDup (map (to it last) (k :: l))). apply nodup_map_in; [|exact L2]. intros x y X Y H. rewrite <- (FT x (L3 x X)), <- (FT y (L3 y Y)), H. reflexivity.
  - intros y Y. change (In y (map (to it last) (k :: l))) in Y. apply in_map_iff in Y. destruct Y as [x [<- X]]. apply T. exact (L3 x X).
  - intros j J1 J2. rewrite (mv_vx _ _ _ _ _ _ W EV1 EV2 PI PA PB LI a b NA NB) in J2 by exact J1. change (In j (map (to it last) (k :: l))).
    rewrite <- (to_from P it last EV1 EV2 PI PA PB LI j J1). apply in_map. apply L4; [exact (from_live _ _ _ _ it last W EV1 EV2 PI PA PB j J1)|exact J2].
Qed.
End MoveSingle.

Lemma vertex_same_refl a : vertex_same a a = true.
Proof.
  assert (U : forall x, ulp_comparison x x 128 = 0%Z).
  { intros x. unfold ulp_comparison. rewrite Z.sub_diag. change (u64 0) with 0%Z. destruct (_ >? _)%Z; reflexivity. }
  unfold vertex_same. rewrite !U. reflexivity.
Qed.
Lemma clustered_sym V a b : clustered V -> In a V -> In b V -> vertex_same a b = true -> vertex_same b a = true.
Proof. intros K A B S. rewrite <- (K a b a A B A S). apply vertex_same_refl. Qed.
Lemma joined_mono D D' u w : (forall p, In p D -> In p D') -> joined D u w -> joined D' u w.
Proof.
  intros S H. induction H as [u w H|u|u w H IH|u w x H1 IH1 H2 IH2]; [apply joined_edge; auto|apply joined_refl|apply joined_sym; exact IH|exact (joined_trans _ _ _ _ IH1 IH2)].
Qed.
Lemma short_edges_S V E k : short_edges V E (S k) = short_edges V E k ++ short_edge V E k.
Proof. unfold short_edges. rewrite seq_S, flat_map_app. cbn [flat_map]. rewrite app_nil_r. reflexivity. Qed.
Lemma short_edges_prefix V E k m : k <= m -> exists D, short_edges V E m = short_edges V E k ++ D.
Proof.
  intros H. induction m as [|m IH]; [exists []; replace k with 0 by lia; reflexivity|]. destruct (Nat.eq_dec k (S m)) as [->|N]; [exists []; rewrite app_nil_r; reflexivity|].
  destruct IH as [D ED]; [lia|]. exists (D ++ short_edge V E m). rewrite short_edges_S, ED, app_assoc. reflexivity.
Qed.
Lemma chain_closed f (Q : nat -> Prop) : forall l x z, chain f x l z -> Q x -> (forall y w, Q y -> f y = Some w -> Q w) -> forall y, In y (x :: l) -> Q y.
Proof.
  induction l as [|u l IH]; intros x z H X S y Y; cbn [chain] in H; [destruct Y as [<-|[]]; exact X|]. destruct H as [H1 H2]. destruct Y as [<-|Y]; [exact X|]. exact (IH u z H2 (S _ _ X H1) S y Y).
Qed.

Definition live (last it n i : nat) : bool := (i <? last) || ((it <=? i) && (i <? n)).
Lemma live_iff last it n i : live last it n i = true <-> i < last \/ (it <= i /\ i < n).
Proof. unfold live. destruct (Nat.ltb_spec i last), (Nat.leb_spec it i), (Nat.ltb_spec i n); cbn; split; try discriminate; lia. Qed.
Lemma bool_ext (a b : bool) : (a = true <-> b = true) -> a = b.
Proof. destruct a, b; intuition congruence. Qed.

Section Loop.
Variables (C : nat) (V : list vvertex) (E0 : list dart).
Let n := length E0.
Hypothesis NEV : Nat.even n = true.
Definition good : Prop := clustered V /\ forest (short_edges V E0 (Nat.div2 n)) /\ single (fun i => i <? n) E0.

Definition degen (E : list dart) (i : nat) : bool :=
  match vx E i, vx E (tw i) with
  | Some u, Some w => match nth_error V u, nth_error V w with Some a, Some b => vertex_same a b | _, _ => false end
  | _, _ => false
  end.
Lemma degen_eval P E i : wfl C (length V) P E -> P i = true -> is_degenerate_edge V E i = Ok (degen E i).
Proof.
  intros W H. pose proof (l_tw _ _ _ _ W _ H) as H'. unfold is_degenerate_edge, degen. rewrite p_vertex_ok by exact (l_len _ _ _ _ W _ H). cbn [obind].
  rewrite p_twin_ok by exact (l_len _ _ _ _ W _ H). cbn [obind]. rewrite (l_tn _ _ _ _ W _ H). rewrite p_vertex_ok by exact (l_len _ _ _ _ W _ H'). cbn [obind].
  destruct (vx E i) as [u|] eqn:U; [|reflexivity]. destruct (vx E (tw i)) as [w|] eqn:X; [|reflexivity].
  destruct (nth_some u V (l_vx _ _ _ _ W _ _ H U)) as [a A]. destruct (nth_some w V (l_vx _ _ _ _ W _ _ H' X)) as [b B]. rewrite A, B, (deref_ok _ _ _ A). cbn [obind]. rewrite (deref_ok _ _ _ B). reflexivity.
Qed.

(* where the edges in use come from *)
Record origin (it last : nat) (E : list dart) (o : nat -> nat) : Prop := mk_origin {
  o_cl : forall i, live last it n i = true -> cl E i = cl E0 (o i);
  o_col : forall i, live last it n i = true -> col E i = col E0 (o i);
  o_tw : forall i, live last it n i = true -> o (tw i) = tw (o i);
  o_id : forall i, it <= i -> o i = i;
  o_lt : forall i, i < last -> o i < it;
  o_mono : forall i j, i < j -> j < last -> o i < o j
}.
Record labels (it last : nat) (E : list dart) (o lab : nat -> nat) : Prop := mk_labels {
  b_vx : forall i, live last it n i = true -> vx E i = option_map lab (vx E0 (o i));
  b_same : forall u a, nth_error V u = Some a -> exists b, nth_error V (lab u) = Some b /\ vertex_same a b = true;
  b_join : forall u w, lab u = lab w -> joined (short_edges V E0 (Nat.div2 it)) u w;
  b_merge : forall u w, In (u, w) (short_edges V E0 (Nat.div2 it)) -> lab u = lab w;
  b_single : single (live last it n) E;
  b_kept : forall k, 2 * k < it -> ((exists i, i < last /\ o i = 2 * k) <-> short_edge V E0 k = [])
}.
Record dinv (it last : nat) (E : list dart) : Prop := mk_dinv {
  d_it : Nat.even it = true;
  d_last : Nat.even last = true;
  d_le : last <= it;
  d_in : it <= n;
  d_len : length E = n;
  d_wf : wfl C (length V) (live last it n) E;
  d_orig : exists o, origin it last E o /\ (good -> exists lab, labels it last E o lab)
}.

Lemma degen_orig it last E o lab : clustered V -> wfl C (length V) (live last it n) E -> origin it last E o -> labels it last E o lab -> Nat.even it = true -> it < n ->
  (forall u, vx E0 it = Some u -> u < length V) -> (forall u, vx E0 (tw it) = Some u -> u < length V) ->
  degen E it = match short_edge V E0 (Nat.div2 it) with [] => false | _ => true end.
Proof.
  intros CL W O B EV IN U1 U2. assert (LI : live last it n it = true) by (apply live_iff; right; lia). pose proof (l_tw _ _ _ _ W _ LI) as LT.
  assert (D2 : 2 * Nat.div2 it = it) by (apply Nat.even_spec in EV; destruct EV as [m ->]; rewrite Nat.div2_double; reflexivity).
  assert (T2 : 2 * Nat.div2 it + 1 = tw it) by (unfold tw; rewrite EV; lia).
  unfold degen, short_edge. rewrite T2, D2, (b_vx _ _ _ _ _ B _ LI), (b_vx _ _ _ _ _ B _ LT), (o_tw _ _ _ _ O _ LI), (o_id _ _ _ _ O it (le_n _)).
  destruct (vx E0 it) as [u|] eqn:EU; cbn [option_map]; [|reflexivity]. destruct (vx E0 (tw it)) as [w|] eqn:EW; cbn [option_map]; [|reflexivity].
  destruct (nth_some u V (U1 u eq_refl)) as [a A]. destruct (nth_some w V (U2 w eq_refl)) as [b B']. rewrite A, B'.
  destruct (b_same _ _ _ _ _ B _ _ A) as [a' [A1 A2]]. destruct (b_same _ _ _ _ _ B _ _ B') as [b' [B1 B2]]. rewrite A1, B1.
  assert (IA : In a V) by (eapply nth_error_In; exact A). assert (IB : In b V) by (eapply nth_error_In; exact B').
  assert (IA' : In a' V) by (eapply nth_error_In; exact A1). assert (IB' : In b' V) by (eapply nth_error_In; exact B1).
  assert (EQ : vertex_same a' b' = vertex_same a b).
  { rewrite <- (CL a a' b' IA IA' IB' A2).
    destruct (vertex_same a b') eqn:X.
    - apply (clustered_sym _ _ _ CL IA IB') in X. pose proof (clustered_sym _ _ _ CL IB IB' B2) as Y. rewrite (CL b' a b IB' IA IB X) in Y. symmetry. exact Y.
    - destruct (vertex_same a b) eqn:Z; [|reflexivity]. rewrite <- X. rewrite (CL a b b' IA IB IB' Z). exact B2. }
  rewrite EQ. destruct (vertex_same a b); reflexivity.
Qed.

Hypothesis VX0 : forall i u, vx E0 i = Some u -> u < length V.
Lemma div2_step it : Nat.even it = true -> Nat.div2 (it + 2) = S (Nat.div2 it) /\ 2 * Nat.div2 it = it /\ tw it = S it.
Proof.
  intros EV. split; [rewrite Nat.add_comm; reflexivity|]. split; [|unfold tw; rewrite EV; reflexivity]. apply Nat.even_spec in EV. destruct EV as [m ->]. rewrite Nat.div2_double. reflexivity.
Qed.
Lemma drop_remove it last E : dinv it last E -> it < n -> degen E it = true -> exists E', remove_edge (Some it) E = Ok E' /\ dinv (it + 2) last E'.
Proof.
  intros [D1 D2 D3 D4 D5 W [o [O LB]]] IN DG. destruct (div2_step it D1) as [DS [DH TI]].
  assert (LI : live last it n it = true) by (apply live_iff; right; lia). pose proof (l_tw _ _ _ _ W _ LI) as LT.
  assert (IN2 : it + 2 <= n). { rewrite TI in LT. apply live_iff in LT. clear - LT D3. lia. }
  assert (DG' := DG). unfold degen in DG'.
  destruct (vx E it) as [v|] eqn:VE; [|discriminate]. destruct (vx E (tw it)) as [w|] eqn:VT; [|discriminate].
  destruct (nth_error V v) as [av|] eqn:AV; [|discriminate]. destruct (nth_error V w) as [aw|] eqn:AW; [|discriminate].
  destruct (rm_nbr _ _ _ _ _ _ _ W LI VE VT) as [pe [pt [ne [nt [B1 [B2 [B3 B4]]]]]]].
  destruct (cycle _ _ _ _ W _ _ LT VT) as [l [CY [ND [PL LL]]]].
  pose proof (rm_ok _ _ _ _ _ _ _ W LI VE _ _ _ _ B1 B2 B3 B4 l CY ND PL LL) as OK.
  pose proof (rm_wf _ _ _ _ _ _ _ W LI VE _ _ _ _ B1 B2 B3 B4 l CY PL) as WF.
  exists (removed E v pe pt ne nt l). split; [exact OK|].
  assert (LV : forall i, live_rm (live last it n) it i = live last (it + 2) n i).
  { intros i. apply bool_ext. rewrite live_rm_iff, !live_iff, TI. clear - D3 IN. lia. }
  assert (LS : forall i, live last (it + 2) n i = true -> live last it n i = true) by (intros i; rewrite !live_iff; lia).
  constructor.
  - rewrite even_plus2. exact D1.
  - exact D2.
  - clear - D3. lia.
  - exact IN2.
  - rewrite rm_length. exact D5.
  - exact (wfl_ext _ _ _ _ _ LV WF).
  - exists o. split.
    + constructor.
      * intros i H. rewrite rm_cl. apply (o_cl _ _ _ _ O). auto.
      * intros i H. rewrite rm_col. apply (o_col _ _ _ _ O). auto.
      * intros i H. apply (o_tw _ _ _ _ O). auto.
      * intros i H. apply (o_id _ _ _ _ O). lia.
      * intros i H. pose proof (o_lt _ _ _ _ O i H). lia.
      * exact (o_mono _ _ _ _ O).
    + intros G. destruct (LB G) as [lab B]. destruct G as [CL [FO _]].
      pose proof (degen_orig _ _ _ _ _ CL W O B D1 IN (VX0 _) (VX0 _)) as DO. rewrite DG in DO.
      assert (SE : exists u0 w0, short_edge V E0 (Nat.div2 it) = [(u0, w0)] /\ vx E0 it = Some u0 /\ vx E0 (tw it) = Some w0).
      { unfold short_edge in *. replace (2 * Nat.div2 it + 1) with (tw it) in * by lia. rewrite DH in *. destruct (vx E0 it) as [u0|]; [|discriminate]. destruct (vx E0 (tw it)) as [w0|]; [|discriminate].
        exists u0, w0. destruct (nth_error V u0) as [v0|]; [|discriminate]. destruct (nth_error V w0) as [v1|]; [|discriminate]. destruct (vertex_same v0 v1); [|discriminate]. repeat split. }
      destruct SE as [u0 [w0 [SE [VU VW]]]].
      pose proof (b_vx _ _ _ _ _ B _ LI) as L1. rewrite (o_id _ _ _ _ O it (le_n _)), VE, VU in L1. cbn [option_map] in L1. assert (LU : lab u0 = v) by congruence.
      pose proof (b_vx _ _ _ _ _ B _ LT) as L2. rewrite (o_tw _ _ _ _ O _ LI), (o_id _ _ _ _ O it (le_n _)), VT, VW in L2. cbn [option_map] in L2. assert (LW : lab w0 = w) by congruence. clear L1 L2.
      assert (NJ : ~ joined (short_edges V E0 (Nat.div2 it)) u0 w0).
      { assert (LE : S (Nat.div2 it) <= Nat.div2 n). { apply Nat.even_spec in NEV. destruct NEV as [m M]. rewrite M, Nat.div2_double. clear - DH IN2 M. lia. }
        destruct (short_edges_prefix V E0 _ _ LE) as [D3' SP]. rewrite short_edges_S, SE, <- app_assoc in SP. exact (FO _ _ _ _ SP). }
      assert (NVW : v <> w). { intros K. apply NJ. apply (b_join _ _ _ _ _ B). congruence. }
      assert (CV : forall j, live last it n j = true -> vx E j = Some w -> In j (tw it :: l)).
      { intros j J K. destruct (b_single _ _ _ _ _ B _ _ LT VT) as [k [K1 [K2 [K3 K4]]]]. pose proof (K4 j J K) as JK.
        refine (proj1 (chain_closed (rot E) (fun y => In y (tw it :: l) /\ live last it n y = true) k (tw it) _ K1 _ _ j JK)).
        - split; [left; reflexivity|exact LT].
        - intros y z [Y1 Y2] R. split; [|destruct (rot_step _ _ _ _ W _ _ Y2 R) as [Z _]; exact Z].
          apply (cycle_rot _ _ _ _ W (tw it) l y z (fun q Q => proj1 (PL q Q)) CY Y2 R). exact Y1. }
      exists (fun x => if lab x =? w then v else lab x). constructor.
      * intros i H. rewrite (rm_vx _ _ _ _ _ v _ W pe pt ne nt l PL i). rewrite (b_vx _ _ _ _ _ B _ (LS _ H)).
        pose proof (b_vx _ _ _ _ _ B _ (LS _ H)) as VI. destruct (vx E0 (o i)) as [x|] eqn:X; cbn [option_map] in *.
        { destruct (Nat.eqb_spec (lab x) w) as [K|K].
          - rewrite K in VI. destruct (CV i (LS _ H) VI) as [Y|Y]; [exfalso; apply live_iff in H; rewrite TI in Y; clear - H Y D3; lia|]. apply mem_in in Y. rewrite Y. reflexivity.
          - destruct (mem_dec i l) as [[M ->]|[_ ->]]; [|reflexivity]. exfalso. destruct (PL i (or_intror M)) as [_ Y]. congruence. }
        { destruct (mem_dec i l) as [[M ->]|[_ ->]]; [|reflexivity]. exfalso. destruct (PL i (or_intror M)) as [_ Y]. congruence. }
      * intros u a A. destruct (b_same _ _ _ _ _ B _ _ A) as [b [A1 A2]]. destruct (Nat.eqb_spec (lab u) w) as [K|K]; [|exists b; split; assumption].
        exists av. split; [exact AV|]. rewrite K, AW in A1. assert (b = aw) by congruence. subst b.
        assert (I1 : In a V) by (eapply nth_error_In; exact A). assert (I2 : In av V) by (eapply nth_error_In; exact AV). assert (I3 : In aw V) by (eapply nth_error_In; exact AW).
        rewrite (CL a aw av I1 I3 I2 A2). apply (clustered_sym _ _ _ CL I2 I3 DG').
      * assert (MN : forall x y, lab x = lab y -> joined (short_edges V E0 (Nat.div2 (it + 2))) x y).
        { intros x y K. apply (b_join _ _ _ _ _ B) in K. revert K. apply joined_mono. intros p Hp. rewrite DS, short_edges_S. apply in_app_iff. left. exact Hp. }
        assert (UW : joined (short_edges V E0 (Nat.div2 (it + 2))) u0 w0).
        { apply joined_edge. rewrite DS, short_edges_S, SE. apply in_app_iff. right. left. reflexivity. }
        intros x y. destruct (Nat.eqb_spec (lab x) w) as [K1|K1], (Nat.eqb_spec (lab y) w) as [K2|K2]; intros K3.
        { apply MN. congruence. }
        { apply (joined_trans _ _ w0); [apply MN; congruence|]. apply (joined_trans _ _ u0); [apply joined_sym; exact UW|apply MN; congruence]. }
        { apply (joined_trans _ _ u0); [apply MN; congruence|]. apply (joined_trans _ _ w0); [exact UW|apply MN; congruence]. }
        { apply MN. exact K3. }
      * intros x y K. rewrite DS, short_edges_S, SE in K. apply in_app_iff in K. destruct K as [K|[K|[]]].
        { rewrite (b_merge _ _ _ _ _ B x y K). reflexivity. }
        { assert (x = u0) by congruence. assert (y = w0) by congruence. subst x y. rewrite LU, LW, Nat.eqb_refl. destruct (v =? w); reflexivity. }
      * apply (single_ext _ _ _ LV). exact (rs_single _ _ _ _ _ _ _ W LI VE VT _ _ _ _ B1 B2 B3 B4 l CY ND PL NVW (b_single _ _ _ _ _ B) CV).
      * intros k K. destruct (Nat.eq_dec k (Nat.div2 it)) as [->|NK].
        { rewrite SE. split; [|discriminate]. intros [i [I1 I2]]. exfalso. pose proof (o_lt _ _ _ _ O i I1) as Y. clear - Y I2 DH. lia. }
        { apply (b_kept _ _ _ _ _ B). clear - K NK DH. lia. }
Qed.
Lemma nondegen_labels it last E o lab : clustered V -> wfl C (length V) (live last it n) E -> origin it last E o -> labels it last E o lab -> Nat.even it = true -> it < n ->
  degen E it = false -> short_edge V E0 (Nat.div2 it) = [].
Proof.
  intros CL W O B D1 IN DG. pose proof (degen_orig _ _ _ _ _ CL W O B D1 IN (VX0 _) (VX0 _)) as DO. rewrite DG in DO. destruct (short_edge V E0 (Nat.div2 it)); [reflexivity|discriminate].
Qed.
Lemma drop_stay it E : dinv it it E -> it < n -> degen E it = false -> dinv (it + 2) (it + 2) E.
Proof.
  intros [D1 D2 D3 D4 D5 W [o [O LB]]] IN DG. destruct (div2_step it D1) as [DS [DH TI]].
  assert (LI : live it it n it = true) by (apply live_iff; right; lia). pose proof (l_tw _ _ _ _ W _ LI) as LT.
  assert (IN2 : it + 2 <= n). { rewrite TI in LT. apply live_iff in LT. clear - LT. lia. }
  assert (LV : forall i, live it it n i = live (it + 2) (it + 2) n i).
  { intros i. apply bool_ext. rewrite !live_iff. clear - IN2. lia. }
  constructor; try (rewrite even_plus2; exact D1); try assumption; try (apply le_n).
  - exact (wfl_ext _ _ _ _ _ LV W).
  - exists o. split.
    + constructor.
      * intros i. rewrite <- LV. apply (o_cl _ _ _ _ O).
      * intros i. rewrite <- LV. apply (o_col _ _ _ _ O).
      * intros i. rewrite <- LV. apply (o_tw _ _ _ _ O).
      * intros i H. apply (o_id _ _ _ _ O). lia.
      * intros i H. destruct (le_lt_dec it i) as [K|K]; [rewrite (o_id _ _ _ _ O) by exact K; exact H|]. pose proof (o_lt _ _ _ _ O i K). lia.
      * intros i j IJ J. destruct (le_lt_dec it j) as [K|K]; [|exact (o_mono _ _ _ _ O i j IJ K)]. rewrite (o_id _ _ _ _ O j) by exact K. destruct (le_lt_dec it i) as [L|L]; [rewrite (o_id _ _ _ _ O) by exact L; exact IJ|].
        pose proof (o_lt _ _ _ _ O i L). lia.
    + intros G. destruct (LB G) as [lab B]. destruct G as [CL [FO _]]. pose proof (nondegen_labels _ _ _ _ _ CL W O B D1 IN DG) as SE. exists lab. constructor.
      * intros i. rewrite <- LV. apply (b_vx _ _ _ _ _ B).
      * exact (b_same _ _ _ _ _ B).
      * intros u w K. rewrite DS, short_edges_S, SE, app_nil_r. exact (b_join _ _ _ _ _ B u w K).
      * intros u w K. rewrite DS, short_edges_S, SE, app_nil_r in K. exact (b_merge _ _ _ _ _ B u w K).
      * exact (single_ext _ _ _ LV (b_single _ _ _ _ _ B)).
      * intros k K. destruct (Nat.eq_dec k (Nat.div2 it)) as [->|NK].
        { split; [intros _; exact SE|]. intros _. exists it. split; [lia|]. rewrite (o_id _ _ _ _ O) by apply le_n. lia. }
        { assert (K' : 2 * k < it) by (clear - K NK DH; lia). rewrite <- (b_kept _ _ _ _ _ B k K'). split; intros [i [I1 I2]]; exists i; (split; [|exact I2]); [|lia].
          destruct (le_lt_dec it i) as [L|L]; [|exact L]. rewrite (o_id _ _ _ _ O) in I2 by exact L. clear - I2 K' L. lia. }
Qed.
Lemma drop_move it last E : dinv it last E -> it < n -> last < it -> degen E it = false -> exists E', move_pair it last E = Ok E' /\ dinv (it + 2) (last + 2) E'.
Proof.
  intros [D1 D2 D3 D4 D5 W [o [O LB]]] IN LT0 DG. destruct (div2_step it D1) as [DS [DH TI]].
  assert (LI : live last it n it = true) by (apply live_iff; right; lia). pose proof (l_tw _ _ _ _ W _ LI) as LT.
  assert (IN2 : it + 2 <= n). { rewrite TI in LT. apply live_iff in LT. clear - LT LT0. lia. }
  assert (GAP : S last < it). { apply (mv_gap _ _ D1 D2 LT0). }
  assert (PA : live last it n last = false) by (destruct (live last it n last) eqn:K; [apply live_iff in K; clear - K LT0; lia|reflexivity]).
  assert (PB : live last it n (S last) = false) by (destruct (live last it n (S last)) eqn:K; [apply live_iff in K; clear - K GAP; lia|reflexivity]).
  assert (LOOP : forall x, (x = it \/ x = tw it) -> nx E x <> Some x).
  { intros x HX K. assert (LX : live last it n x = true) by (destruct HX as [->| ->]; assumption). pose proof (l_tw _ _ _ _ W _ LX) as LTX.
    pose proof (l_nvx _ _ _ _ W _ _ LX K) as Y.
    destruct (vx E (tw x)) as [u|] eqn:U.
    - assert (DX : degen E x = true). { unfold degen. rewrite Y, U. destruct (nth_some u V (l_vx _ _ _ _ W _ _ LTX U)) as [a A]. rewrite A. apply vertex_same_refl. }
      assert (DY : degen E (tw x) = true). { unfold degen. rewrite tw_tw, Y, U. destruct (nth_some u V (l_vx _ _ _ _ W _ _ LTX U)) as [a A]. rewrite A. apply vertex_same_refl. }
      destruct HX as [->| ->]; [congruence|]. rewrite tw_tw in DY. congruence.
    - apply (l_null _ _ _ _ W _ LTX) in U. apply (l_null2 _ _ _ _ W _ LTX) in U. rewrite tw_tw in U. congruence. }
  assert (NL1 : nx E it <> Some it) by (apply LOOP; left; reflexivity).
  assert (NL2 : nx E (S it) <> Some (S it)) by (rewrite <- TI; apply LOOP; right; reflexivity).
  destruct (nth_some it E) as [a NA]; [rewrite D5; exact IN|]. destruct (nth_some (S it) E) as [b NB]; [rewrite D5; lia|].
  exists (moved E it last a b). split; [exact (mv_ok _ _ _ _ _ _ W D1 D2 LI PA PB LT0 NL1 NL2 a b NA NB)|].
  assert (LV : forall i, live_mv (live last it n) it last i = live (last + 2) (it + 2) n i).
  { intros i. apply bool_ext. rewrite live_mv_iff by assumption. rewrite !live_iff. clear - GAP IN2. lia. }
  assert (FRL : forall j, live (last + 2) (it + 2) n j = true -> live last it n (from it last j) = true).
  { intros j H. rewrite <- LV in H. exact (from_live _ _ _ _ _ _ W D1 D2 LI PA PB j H). }
  assert (FRI : forall j, it + 2 <= j -> from it last j = j).
  { intros j H. unfold from. destruct (Nat.eqb_spec last j); [lia|]. destruct (Nat.eqb_spec (S last) j); [lia|reflexivity]. }
  assert (FRM : forall j, j < last + 2 -> (j < last /\ from it last j = j) \/ (j = last /\ from it last j = it) \/ (j = S last /\ from it last j = S it)).
  { intros j H. unfold from. destruct (Nat.eqb_spec last j) as [K|K]; [right; left; split; [congruence|reflexivity]|]. destruct (Nat.eqb_spec (S last) j) as [L|L]; [right; right; split; [congruence|reflexivity]|]. left. split; [lia|reflexivity]. }
  constructor.
  - rewrite even_plus2. exact D1.
  - rewrite even_plus2. exact D2.
  - lia.
  - exact IN2.
  - rewrite mv_length. exact D5.
  - apply (wfl_ext _ _ _ _ _ LV). exact (mv_wf _ _ _ _ _ _ W D1 D2 LI PA PB LT0 NL1 NL2 a b NA NB).
  - assert (O' : origin (it + 2) (last + 2) (moved E it last a b) (fun i => o (from it last i))).
    { constructor.
      * intros i H. rewrite (mv_cl _ _ _ _ _ _ W D1 D2 LI PA PB LT0 a b NA NB) by (rewrite LV; exact H). apply (o_cl _ _ _ _ O). exact (FRL _ H).
      * intros i H. rewrite (mv_col _ _ _ _ _ _ W D1 D2 LI PA PB LT0 a b NA NB) by (rewrite LV; exact H). apply (o_col _ _ _ _ O). exact (FRL _ H).
      * intros i H. rewrite (from_tw _ _ _ D1 D2 LI PA PB LT0) by (rewrite LV; exact H). apply (o_tw _ _ _ _ O). exact (FRL _ H).
      * intros i H. rewrite FRI by exact H. apply (o_id _ _ _ _ O). lia.
      * intros i H. destruct (FRM i H) as [[H1 ->]|[[H1 ->]|[H1 ->]]]; [pose proof (o_lt _ _ _ _ O i H1); lia|rewrite (o_id _ _ _ _ O) by lia; lia|rewrite (o_id _ _ _ _ O) by lia; lia].
      * intros i j IJ J. assert (HI : i < last + 2) by lia.
        destruct (FRM i HI) as [[I1 ->]|[[I1 ->]|[I1 ->]]], (FRM j J) as [[J1 ->]|[[J1 ->]|[J1 ->]]]; try lia; rewrite ?(o_id _ _ _ _ O it), ?(o_id _ _ _ _ O (S it)) by lia; try lia; try (pose proof (o_lt _ _ _ _ O i I1); lia).
        exact (o_mono _ _ _ _ O i j IJ J1). }
    exists (fun i => o (from it last i)). split; [exact O'|].
    intros G. destruct (LB G) as [lab B]. destruct G as [CL [FO _]]. pose proof (nondegen_labels _ _ _ _ _ CL W O B D1 IN DG) as SE. exists lab. constructor.
    * intros i H. rewrite (mv_vx _ _ _ _ _ _ W D1 D2 LI PA PB LT0 a b NA NB) by (rewrite LV; exact H). apply (b_vx _ _ _ _ _ B). exact (FRL _ H).
    * exact (b_same _ _ _ _ _ B).
    * intros u w K. rewrite DS, short_edges_S, SE, app_nil_r. exact (b_join _ _ _ _ _ B u w K).
    * intros u w K. rewrite DS, short_edges_S, SE, app_nil_r in K. exact (b_merge _ _ _ _ _ B u w K).
    * apply (single_ext _ _ _ LV). exact (ms_single _ _ _ _ _ _ W D1 D2 LI PA PB LT0 NL1 NL2 a b NA NB (b_single _ _ _ _ _ B)).
    * intros k K. destruct (Nat.eq_dec k (Nat.div2 it)) as [->|NK].
      { split; [intros _; exact SE|]. intros _. exists last. split; [lia|]. unfold from. rewrite Nat.eqb_refl, (o_id _ _ _ _ O) by apply le_n. lia. }
      { assert (K' : 2 * k < it) by (clear - K NK DH; lia). rewrite <- (b_kept _ _ _ _ _ B k K'). split; intros [i [I1 I2]].
        - destruct (FRM i I1) as [[H1 H2]|[[H1 H2]|[H1 H2]]]; rewrite H2 in I2; [exists i; split; assumption| |]; exfalso; rewrite (o_id _ _ _ _ O) in I2 by lia; lia.
        - exists i. split; [lia|]. unfold from. destruct (Nat.eqb_spec last i); [lia|]. destruct (Nat.eqb_spec (S last) i); [lia|exact I2]. }
Qed.
Lemma drop_loop : forall m it last E, dinv it last E -> it + 2 * m = n -> exists E' last', drop_edges m V it last E = Ok (E', last') /\ dinv n last' E'.
Proof.
  induction m as [|m IH]; intros it last E D M.
  - exists E, last. split; [reflexivity|]. replace n with it by lia. exact D.
  - cbn [drop_edges]. assert (LI : live last it n it = true) by (apply live_iff; right; lia).
    rewrite (degen_eval _ _ _ (d_wf _ _ _ D) LI). cbn [obind]. destruct (degen E it) eqn:DG.
    + destruct (drop_remove it last E D) as [E1 [R1 R2]]; [lia|exact DG|]. rewrite R1. cbn [obind]. apply IH; [exact R2|lia].
    + destruct (Nat.eqb_spec it last) as [K|K].
      * subst last. cbn [obind]. apply IH; [|lia]. apply drop_stay; [exact D|lia|exact DG].
      * pose proof (d_le _ _ _ D) as LE. destruct (drop_move it last E D) as [E1 [R1 R2]]; [lia|lia|exact DG|]. rewrite R1. cbn [obind]. apply IH; [exact R2|lia].
Qed.
End Loop.

(* what the loop leaves *)
Lemma wf_wfl C V E : wf C V E -> apart E -> wfl C V (fun i => i <? length E) E.
Proof.
  intros [A1 A2 A3 A4 A5 A6 A7 A8 A9 A10] AP.
  assert (Q : forall i, (i <? length E) = true -> i < length E) by (intros i H; apply Nat.ltb_lt; exact H).
  constructor.
  - intros i H. apply Nat.ltb_lt. apply tw_lt; auto.
  - exact Q.
  - intros i H. auto.
  - intros i H. auto.
  - intros i v _. apply A4.
  - intros i j _ K. apply A5 in K. split; [apply Nat.ltb_lt; eapply pv_lt; exact K|exact K].
  - intros i j _ K. apply A6 in K. split; [apply Nat.ltb_lt; eapply nx_lt; exact K|exact K].
  - intros i H. auto.
  - intros i H. auto.
  - intros i j _. apply A9.
  - intros i j _. apply A10.
  - intros i H. auto.
Qed.
Lemma wfl_wf C V E n : n <= length E -> Nat.even n = true -> wfl C V (fun i => i <? n) E -> wf C V (firstn n E) /\ apart (firstn n E).
Proof.
  intros LE EV W. assert (LN : length (firstn n E) = n) by (rewrite firstn_length; lia).
  assert (F : forall B (f : dart -> option B) i, i < n -> fld f (firstn n E) i = fld f E i) by (intros B f i H; rewrite fld_firstn; destruct (Nat.ltb_spec i n); [reflexivity|lia]).
  assert (FL : forall B (f : dart -> option B) i b, fld f (firstn n E) i = Some b -> i < n) by (intros B f i b H; rewrite <- LN; eapply fld_lt; exact H).
  assert (T : forall i, i < n -> tw i < n) by (intros i; apply tw_lt; exact EV).
  assert (Q : forall i, i < n -> (i <? n) = true) by (intros i H; apply Nat.ltb_lt; exact H).
  assert (Q' : forall i, (i <? n) = true -> i < n) by (intros i H; apply Nat.ltb_lt; exact H).
  split; [constructor|].
  - rewrite LN. exact EV.
  - intros i. rewrite LN. intros H. unfold tn. rewrite F by exact H. apply (l_tn _ _ _ _ W). auto.
  - intros i. rewrite LN. intros H. unfold cl. rewrite F by exact H. apply (l_cl _ _ _ _ W). auto.
  - intros i v H. pose proof (FL _ _ _ _ H) as K. unfold vx in H. rewrite F in H by exact K. exact (l_vx _ _ _ _ W i v (Q _ K) H).
  - intros i j H. pose proof (FL _ _ _ _ H) as K. unfold nx in H. rewrite F in H by exact K. destruct (l_nx _ _ _ _ W i j (Q _ K) H) as [J1 J2]. unfold pv. rewrite F by auto. exact J2.
  - intros i j H. pose proof (FL _ _ _ _ H) as K. unfold pv in H. rewrite F in H by exact K. destruct (l_pv _ _ _ _ W i j (Q _ K) H) as [J1 J2]. unfold nx. rewrite F by auto. exact J2.
  - intros i. rewrite LN. intros H. unfold vx, pv. rewrite !F by exact H. apply (l_null _ _ _ _ W). auto.
  - intros i. rewrite LN. intros H. unfold pv, nx. rewrite !F by auto. apply (l_null2 _ _ _ _ W). auto.
  - intros i j H. pose proof (FL _ _ _ _ H) as K. unfold nx in H. rewrite F in H by exact K. destruct (l_nx _ _ _ _ W i j (Q _ K) H) as [J1 J2]. unfold cl. rewrite !F by auto. exact (l_ncl _ _ _ _ W _ _ (Q _ K) H).
  - intros i j H. pose proof (FL _ _ _ _ H) as K. unfold nx in H. rewrite F in H by exact K. destruct (l_nx _ _ _ _ W i j (Q _ K) H) as [J1 J2]. unfold vx. rewrite !F by auto. exact (l_nvx _ _ _ _ W _ _ (Q _ K) H).
  - intros i. rewrite LN. intros H. unfold cl. rewrite !F by auto. apply (l_apart _ _ _ _ W). auto.
Qed.
Lemma single_firstn E n : (forall i j, i < n -> pv E i = Some j -> j < n) -> single (fun i => i <? n) E -> single (fun i => i <? n) (firstn n E).
Proof.
  intros CLS S i v H K.
  assert (F : forall B (f : dart -> option B) i, i < n -> fld f (firstn n E) i = fld f E i) by (intros B f k Hk; rewrite fld_firstn; destruct (Nat.ltb_spec k n); [reflexivity|lia]).
  assert (HI := H). apply Nat.ltb_lt in HI. unfold vx in K. rewrite F in K by exact HI. destruct (S i v H K) as [l [L1 [L2 [L3 L4]]]]. exists l. split; [|split; [exact L2|split; [exact L3|]]].
  - apply (chain_ext (rot E)); [|exact L1]. intros y Y. apply L3, Nat.ltb_lt in Y. unfold rot, pv. rewrite F by exact Y. reflexivity.
  - intros j J1 J2. apply L4; [exact J1|]. apply Nat.ltb_lt in J1. unfold vx in J2. rewrite F in J2 by exact J1. exact J2.
Qed.
Lemma around_single C V E : wf C V E -> apart E -> around3 E -> single (fun i => i <? length E) E.
Proof.
  intros W0 AP AR i v H K. pose proof (wf_wfl _ _ _ W0 AP) as W. destruct (cycle _ _ _ _ W i v H K) as [l [L1 [L2 [L3 _]]]]. exists l. split; [exact L1|]. split; [exact L2|]. split; [intros y Y; apply L3; exact Y|].
  assert (ST : forall y z, In y (i :: l) -> rot E y = Some z -> In z (i :: l)).
  { intros y z Y R. destruct (L3 y Y) as [PY _]. apply (cycle_rot _ _ _ _ W i l y z (fun q Q => proj1 (L3 q Q)) L1 PY R). exact Y. }
  intros j J1 J2. destruct (AR i j v K J2) as [->|[R|[k [R1 R2]]]]; [left; reflexivity| |].
  - apply (ST i); [left; reflexivity|exact R].
  - apply (ST k); [|exact R2]. apply (ST i); [left; reflexivity|exact R1].
Qed.

(* the edges that are kept: where they come from, and with which vertices *)
Record kept (V : list vvertex) (E0 E : list dart) (o : nat -> nat) : Prop := mk_kept {
  k_lt : forall i, i < length E -> o i < length E0;
  k_mono : forall i j, i < j -> j < length E -> o i < o j;
  k_tw : forall i, i < length E -> o (tw i) = tw (o i);
  k_cl : forall i, i < length E -> cl E i = cl E0 (o i);
  k_col : forall i, i < length E -> col E i = col E0 (o i)
}.
Record kept_vertices (V : list vvertex) (E0 E : list dart) (o lab : nat -> nat) : Prop := mk_kv {
  kv_vx : forall i, i < length E -> vx E i = option_map lab (vx E0 (o i));
  kv_same : forall u a, nth_error V u = Some a -> exists b, nth_error V (lab u) = Some b /\ vertex_same a b = true;
  kv_join : forall u w, lab u = lab w <-> joined (short_edges V E0 (Nat.div2 (length E0))) u w;
  kv_single : single (fun i => i <? length E) E;
  kv_all : forall k, 2 * k < length E0 -> ((exists i, i < length E /\ o i = 2 * k) <-> short_edge V E0 k = [])
}.
Lemma drop_edges_ok C V E0 : wf C (length V) E0 -> apart E0 -> exists E1 last, drop_edges (Nat.div2 (length E0)) V 0 0 E0 = Ok (E1, last) /\
  let E2 := firstn last E1 in wf C (length V) E2 /\ apart E2 /\ exists o, kept V E0 E2 o /\ (good V E0 -> exists lab, kept_vertices V E0 E2 o lab).
Proof.
  intros W0 AP. set (n := length E0). pose proof (w_even _ _ _ W0) as NEV. fold n in NEV.
  assert (L0 : forall i, live 0 0 n i = (i <? n)) by (intros i; apply bool_ext; rewrite live_iff, Nat.ltb_lt; lia).
  assert (D0 : dinv C V E0 0 0 E0).
  { constructor; try reflexivity; try (fold n; lia).
    - apply (wfl_ext _ _ (fun i => i <? n)); [intros i; symmetry; apply L0|]. apply wf_wfl; assumption.
    - exists (fun i => i). split; [constructor; try reflexivity; lia|]. intros [CL [FO SG]]. exists (fun u => u). constructor.
      + intros i _. destruct (vx E0 i); reflexivity.
      + intros u a A. exists a. split; [exact A|apply vertex_same_refl].
      + intros u w ->. apply joined_refl.
      + intros u w [].
      + apply (single_ext (fun i => i <? n)); [intros i; symmetry; apply L0|exact SG].
      + intros k K. lia. }
  destruct (drop_loop C V E0 NEV (w_vx _ _ _ W0) (Nat.div2 n) 0 0 E0 D0) as [E1 [last [R D]]].
  { apply Nat.even_spec in NEV. destruct NEV as [m M]. fold n. rewrite M, Nat.div2_double. lia. }
  exists E1, last. split; [exact R|]. destruct D as [D1 D2 D3 D4 D5 W [o [O LB]]]. fold n in D1, D3, D4, D5, W, O, LB. cbn zeta.
  assert (LL : forall i, live last n n i = (i <? last)) by (intros i; apply bool_ext; rewrite live_iff, Nat.ltb_lt; lia).
  apply (wfl_ext _ _ _ _ _ LL) in W. assert (LE : last <= length E1) by lia.
  destruct (wfl_wf _ _ _ _ LE D2 W) as [WF AP2]. split; [exact WF|]. split; [exact AP2|].
  assert (LN : length (firstn last E1) = last) by (rewrite firstn_length; lia).
  assert (F : forall B (f : dart -> option B) i, i < last -> fld f (firstn last E1) i = fld f E1 i) by (intros B f k Hk; rewrite fld_firstn; destruct (Nat.ltb_spec k last); [reflexivity|lia]).
  assert (LIV : forall i, i < last -> live last n n i = true) by (intros i H; apply live_iff; left; exact H).
  exists o. split.
  - constructor; rewrite LN.
    + exact (o_lt _ _ _ _ _ O).
    + exact (o_mono _ _ _ _ _ O).
    + intros i H. apply (o_tw _ _ _ _ _ O). auto.
    + intros i H. unfold cl at 1. rewrite F by exact H. apply (o_cl _ _ _ _ _ O). auto.
    + intros i H. unfold col at 1. rewrite F by exact H. apply (o_col _ _ _ _ _ O). auto.
  - intros G. destruct (LB G) as [lab B]. exists lab. constructor; rewrite ?LN.
    + intros i H. unfold vx at 1. rewrite F by exact H. apply (b_vx _ _ _ _ _ _ _ B). auto.
    + exact (b_same _ _ _ _ _ _ _ B).
    + intros u w. split; [apply (b_join _ _ _ _ _ _ _ B)|]. intros J. induction J as [u w J|u|u w _ IH|u w x _ IH1 _ IH2]; [exact (b_merge _ _ _ _ _ _ _ B _ _ J)|reflexivity|congruence|congruence].
    + apply single_firstn; [|exact (single_ext _ _ _ LL (b_single _ _ _ _ _ _ _ B))]. intros i j H K. destruct (l_pv _ _ _ _ W i j) as [J _]; [apply Nat.ltb_lt; exact H|exact K|]. apply Nat.ltb_lt. exact J.
    + exact (b_kept _ _ _ _ _ _ _ B).
Qed.
