(* The clean-up of the half-edge structure after the sweep. *)
From Verif Require Import Base Units Outcome VorSpec VorModel VDModel VDSpec VDMem VDInsert VDOrbit.
Local Open Scope nat_scope.

Lemma fld_ext {B : Type} (f g : dart -> option B) E i : (forall d, f d = g d) -> fld f E i = fld g E i.
Proof. intros H. unfold fld. destruct (nth_error E i); [apply H|reflexivity]. Qed.

(* the invariant, for the edges that are still in use *)
Record wfl (C V : nat) (P : nat -> bool) (E : list dart) : Prop := mk_wfl {
  l_tw : forall i, P i = true -> P (tw i) = true;
  l_len : forall i, P i = true -> i < length E;
  l_tn : forall i, P i = true -> tn E i = Some (tw i);
  l_cl : forall i, P i = true -> exists c, cl E i = Some c /\ c < C;
  l_vx : forall i v, P i = true -> vx E i = Some v -> v < V;
  l_nx : forall i j, P i = true -> nx E i = Some j -> P j = true /\ pv E j = Some i;
  l_pv : forall i j, P i = true -> pv E i = Some j -> P j = true /\ nx E j = Some i;
  l_null : forall i, P i = true -> (vx E i = None <-> pv E i = None);
  l_null2 : forall i, P i = true -> (pv E i = None <-> nx E (tw i) = None);
  l_ncl : forall i j, P i = true -> nx E i = Some j -> cl E j = cl E i;
  l_nvx : forall i j, P i = true -> nx E i = Some j -> vx E j = vx E (tw i);
  l_apart : forall i, P i = true -> cl E i <> cl E (tw i)
}.
Lemma wfl_ext C V P Q E : (forall i, P i = Q i) -> wfl C V P E -> wfl C V Q E.
Proof.
  intros X [A1 A2 A3 A4 A5 A6 A7 A8 A9 A10 A11 A12].
  constructor; intros i; intros; rewrite <- ?X in *; eauto.
Qed.

(* ---------- around a vertex ---------- *)
Section Around.
Variables (C V : nat) (P : nat -> bool) (E : list dart).
Hypothesis W : wfl C V P E.
Lemma rot_pv i j : rot E i = Some j -> pv E i = Some (tw j).
Proof. unfold rot. destruct (pv E i) as [k|]; [|discriminate]. intros H. assert (J : tw k = j) by congruence. rewrite <- J, tw_tw. reflexivity. Qed.
Lemma rot_step i j : P i = true -> rot E i = Some j -> P j = true /\ pv E j <> None /\ vx E j = vx E i /\ nx E (tw j) = Some i.
Proof.
  intros H R. apply rot_pv in R. destruct (l_pv _ _ _ _ W _ _ H R) as [H1 H2]. pose proof (l_tw _ _ _ _ W _ H1) as H3. rewrite tw_tw in H3.
  split; [exact H3|]. split; [|split; [|exact H2]].
  - intros K. apply (l_null2 _ _ _ _ W _ H3) in K. congruence.
  - pose proof (l_nvx _ _ _ _ W _ _ H1 H2) as K. rewrite tw_tw in K. symmetry. exact K.
Qed.
Lemma rot_inj i j k : P i = true -> P j = true -> rot E i = Some k -> rot E j = Some k -> i = j.
Proof. intros H1 H2 R1 R2. destruct (rot_step _ _ H1 R1) as [_ [_ [_ K1]]]. destruct (rot_step _ _ H2 R2) as [_ [_ [_ K2]]]. congruence. Qed.
Lemma rot_some i v : P i = true -> vx E i = Some v -> rot E i <> None.
Proof. intros H K. unfold rot. destruct (pv E i) eqn:G; [congruence|]. apply (l_null _ _ _ _ W _ H) in G. congruence. Qed.
Lemma cycle i v : P i = true -> vx E i = Some v -> exists l, chain (rot E) i l (Some i) /\ NoDup (i :: l) /\ (forall y, In y (i :: l) -> P y = true /\ vx E y = Some v) /\ length (i :: l) <= length E.
Proof.
  intros H K. set (f := fun x => if P x then rot E x else None).
  assert (INJ : forall a b c, f a = Some c -> f b = Some c -> a = b).
  { intros a b c. unfold f. destruct (P a) eqn:A; [|discriminate]. destruct (P b) eqn:B; [|discriminate]. apply rot_inj; assumption. }
  assert (RNG : forall a b, f a = Some b -> b < length E).
  { intros a b. unfold f. destruct (P a) eqn:A; [|discriminate]. intros R. destruct (rot_step _ _ A R) as [B _]. exact (l_len _ _ _ _ W _ B). }
  destruct (walk f (length E) INJ RNG i (l_len _ _ _ _ W _ H)) as [l [z [H1 [H2 [H3 H4]]]]].
  assert (PL : forall l x z, P x = true -> vx E x = Some v -> chain f x l z -> forall y, In y (x :: l) -> P y = true /\ vx E y = Some v).
  { clear - W. induction l as [|w l IH]; intros x z A B Hc y Y; cbn [chain] in Hc; [destruct Y as [<-|[]]; tauto|].
    destruct Hc as [Hc1 Hc2]. destruct Y as [<-|Y]; [tauto|]. unfold f in Hc1. rewrite A in Hc1. destruct (rot_step _ _ A Hc1) as [Q1 [_ [Q2 _]]]. rewrite B in Q2. exact (IH w z Q1 Q2 Hc2 y Y). }
  specialize (PL _ _ _ H K H1).
  assert (Z : z = Some i).
  { destruct H3 as [->|Z]; [|exact Z]. exfalso. destruct (chain_last _ _ _ _ H1) as [y [Y1 Y2]]. destruct (PL y Y1) as [Y3 Y4]. unfold f in Y2. rewrite Y3 in Y2. exact (rot_some _ _ Y3 Y4 Y2). }
  subst z. exists l. split; [|split; [exact H2|split; [exact PL|apply small_length; assumption]]].
  apply (chain_ext f); [|exact H1]. intros y Y. unfold f. destruct (PL y Y) as [-> _]. reflexivity.
Qed.
(* the edges of the cycle are those reached from any of them *)
Lemma cycle_rot i l j k : (forall y, In y (i :: l) -> P y = true) -> chain (rot E) i l (Some i) -> P j = true -> rot E j = Some k -> (In j (i :: l) <-> In k (i :: l)).
Proof.
  intros PL H J R. split; intros K.
  - destruct (chain_succ _ _ _ _ _ H K) as [Q|[w [Q1 Q2]]]; [left; congruence|right]. congruence.
  - destruct K as [<-|K].
    + destruct (chain_last _ _ _ _ H) as [y [Y1 Y2]]. replace j with y; [exact Y1|]. apply (rot_inj _ _ _ (PL _ Y1) J Y2 R).
    + destruct (chain_pred _ _ _ _ _ H K) as [y [Y1 [Y2 _]]]. replace j with y; [exact Y1|]. apply (rot_inj _ _ _ (PL _ Y1) J Y2 R).
Qed.
End Around.

(* the vertex of some edges is set *)
Definition mem (j : nat) (l : list nat) : bool := existsb (Nat.eqb j) l.
Lemma mem_in j l : mem j l = true <-> In j l.
Proof. unfold mem. rewrite existsb_exists. split; [intros [x [H1 H2]]; apply Nat.eqb_eq in H2; subst; exact H1|intros H; exists j; split; [exact H|apply Nat.eqb_refl]]. Qed.
Lemma mem_dec j l : {In j l /\ mem j l = true} + {~ In j l /\ mem j l = false}.
Proof. destruct (mem j l) eqn:M; [left|right]; split; try reflexivity; [apply mem_in; exact M|intros H; apply mem_in in H; congruence]. Qed.
Fixpoint setv (l : list nat) (v : nat) (E : list dart) : list dart :=
  match l with [] => E | i :: l' => setv l' v (upd i (set_vertex (Some v)) E) end.
Lemma setv_length l v : forall E, length (setv l v E) = length E.
Proof. induction l as [|i l IH]; intros E; [reflexivity|]. cbn [setv]. rewrite IH, length_upd. reflexivity. Qed.
Lemma setv_fld {B : Type} (f : dart -> option B) l v : (forall d, f (set_vertex (Some v) d) = f d) -> forall E j, fld f (setv l v E) j = fld f E j.
Proof.
  intros H. induction l as [|i l IH]; intros E j; [reflexivity|]. cbn [setv]. rewrite IH, fld_upd. destruct ((i =? j) && (j <? length E)); [|reflexivity]. apply fld_ext. exact H.
Qed.
Lemma setv_cl l v E j : cl (setv l v E) j = cl E j. Proof. apply setv_fld. reflexivity. Qed.
Lemma setv_tn l v E j : tn (setv l v E) j = tn E j. Proof. apply setv_fld. reflexivity. Qed.
Lemma setv_nx l v E j : nx (setv l v E) j = nx E j. Proof. apply setv_fld. reflexivity. Qed.
Lemma setv_pv l v E j : pv (setv l v E) j = pv E j. Proof. apply setv_fld. reflexivity. Qed.
Lemma setv_col l v E j : col (setv l v E) j = col E j. Proof. apply setv_fld. reflexivity. Qed.
Lemma setv_rot l v E j : rot (setv l v E) j = rot E j. Proof. unfold rot. rewrite setv_pv. reflexivity. Qed.
Lemma setv_vx l v : forall E j, (forall i, In i l -> i < length E) -> vx (setv l v E) j = if mem j l then Some v else vx E j.
Proof.
  induction l as [|i l IH]; intros E j H; [reflexivity|]. cbn [setv]. rewrite IH by (intros k K; rewrite length_upd; apply H; right; exact K).
  unfold mem at 2. cbn [existsb]. fold (mem j l). rewrite vx_set_vertex by (apply H; left; reflexivity). rewrite (Nat.eqb_sym j i). destruct (mem j l); [rewrite orb_true_r; reflexivity|]. rewrite orb_false_r. reflexivity.
Qed.
Lemma p_rot_ok E i j : rot E i = Some j -> tn E (tw j) = Some j -> p_rot_next E (Some i) = Ok (Some j).
Proof.
  intros R T. apply rot_pv in R. unfold p_rot_next. rewrite p_prev_ok by (eapply pv_lt; exact R). cbn [obind]. rewrite R, p_twin_ok by (eapply tn_lt; exact T). rewrite T. reflexivity.
Qed.
Lemma spin_ok v t : forall l u E fuel, chain (rot E) u l (Some t) -> ~ In t (u :: l) -> (forall x y, In x (u :: l) -> rot E x = Some y -> tn E (tw y) = Some y) ->
  S (length (u :: l)) <= fuel -> spin fuel (Some v) (Some t) (Some u) E = Ok (setv (u :: l) v E).
Proof.
  induction l as [|w l IH]; intros u E fuel H N T F; cbn [chain] in H.
  - destruct fuel as [|[|fuel]]; cbn [length] in F; [lia|lia|]. cbn [spin ptr_eqb]. destruct (Nat.eqb_spec u t) as [->|_]; [exfalso; apply N; left; reflexivity|].
    rewrite assign_ok by (eapply pv_lt, rot_pv; exact H). cbn [obind].
    rewrite (p_rot_ok _ _ t); [|unfold rot in *; autorewrite with vd; exact H|autorewrite with vd; apply (T u); [left; reflexivity|exact H]]. cbn [obind ptr_eqb]. rewrite Nat.eqb_refl. reflexivity.
  - destruct H as [H1 H2]. destruct fuel as [|fuel]; cbn [length] in F; [lia|]. cbn [spin ptr_eqb]. destruct (Nat.eqb_spec u t) as [->|_]; [exfalso; apply N; left; reflexivity|].
    rewrite assign_ok by (eapply pv_lt, rot_pv; exact H1). cbn [obind].
    rewrite (p_rot_ok _ _ w); [|unfold rot in *; autorewrite with vd; exact H1|autorewrite with vd; apply (T u); [left; reflexivity|exact H1]]. cbn [obind].
    change (setv (u :: w :: l) v E) with (setv (w :: l) v (upd u (set_vertex (Some v)) E)). apply IH.
    + apply (chain_ext (rot E)); [|exact H2]. intros y _. unfold rot. autorewrite with vd. reflexivity.
    + intros K. apply N. right. exact K.
    + intros x y X R. autorewrite with vd. apply (T x); [right; exact X|]. unfold rot in *. autorewrite with vd in R. exact R.
    + cbn [length]. lia.
Qed.
Lemma relabel_ok v t : forall l u E fuel, chain (rot E) u l (Some t) -> ~ In t l -> (forall x y, In x (u :: l) -> rot E x = Some y -> tn E (tw y) = Some y) ->
  length (u :: l) <= fuel -> relabel fuel v (Some t) (Some u) E = Ok (setv (u :: l) v E).
Proof.
  induction l as [|w l IH]; intros u E fuel H N T F; cbn [chain] in H; destruct fuel as [|fuel]; cbn [length] in F; try lia; cbn [relabel].
  - rewrite assign_ok by (eapply pv_lt, rot_pv; exact H). cbn [obind].
    rewrite (p_rot_ok _ _ t); [|unfold rot in *; autorewrite with vd; exact H|autorewrite with vd; apply (T u); [left; reflexivity|exact H]]. cbn [obind ptr_eqb]. rewrite Nat.eqb_refl. reflexivity.
  - destruct H as [H1 H2]. rewrite assign_ok by (eapply pv_lt, rot_pv; exact H1). cbn [obind].
    rewrite (p_rot_ok _ _ w); [|unfold rot in *; autorewrite with vd; exact H1|autorewrite with vd; apply (T u); [left; reflexivity|exact H1]]. cbn [obind ptr_eqb].
    destruct (Nat.eqb_spec w t) as [->|_]; [exfalso; apply N; left; reflexivity|].
    change (setv (u :: w :: l) v E) with (setv (w :: l) v (upd u (set_vertex (Some v)) E)). apply IH.
    + apply (chain_ext (rot E)); [|exact H2]. intros y _. unfold rot. autorewrite with vd. reflexivity.
    + intros K. apply N. right. exact K.
    + intros x y X R. autorewrite with vd. apply (T x); [right; exact X|]. unfold rot in *. autorewrite with vd in R. exact R.
    + cbn [length]. lia.
Qed.

(* ---------- remove_edge ---------- *)
Section Remove.
Variables (C V : nat) (P : nat -> bool) (E : list dart) (e v w : nat).
Hypothesis W : wfl C V P E.
Hypothesis PE : P e = true.
Hypothesis VE : vx E e = Some v.
Hypothesis VT : vx E (tw e) = Some w.
Let t := tw e.
Lemma rm_Pt : P t = true. Proof. exact (l_tw _ _ _ _ W _ PE). Qed.
Lemma rm_tt : tw t = e. Proof. apply tw_tw. Qed.
Lemma rm_nbr : exists pe pt ne nt, pv E e = Some pe /\ pv E t = Some pt /\ nx E e = Some ne /\ nx E t = Some nt.
Proof.
  pose proof rm_Pt as PT.
  destruct (pv E e) as [pe|] eqn:A1; [|apply (l_null _ _ _ _ W _ PE) in A1; congruence].
  destruct (pv E t) as [pt|] eqn:A2; [|apply (l_null _ _ _ _ W _ PT) in A2; unfold t in A2; congruence].
  destruct (nx E e) as [ne|] eqn:A3; [|exfalso; assert (K : pv E t = None); [apply (l_null2 _ _ _ _ W _ PT); rewrite rm_tt; exact A3|congruence]].
  destruct (nx E t) as [nt|] eqn:A4; [|exfalso; assert (K : pv E e = None); [apply (l_null2 _ _ _ _ W _ PE); exact A4|congruence]].
  exists pe, pt, ne, nt. tauto.
Qed.
Variables (pe pt ne nt : nat).
Hypothesis B1 : pv E e = Some pe.
Hypothesis B2 : pv E t = Some pt.
Hypothesis B3 : nx E e = Some ne.
Hypothesis B4 : nx E t = Some nt.
Variable l : list nat.
Hypothesis CY : chain (rot E) t l (Some t).
Hypothesis ND : NoDup (t :: l).
Hypothesis PL : forall y, In y (t :: l) -> P y = true /\ vx E y = Some w.
Hypothesis LL : length (t :: l) <= length E.
Definition removed : list dart :=
  upd pt (set_next (Some nt)) (upd nt (set_prev (Some pt)) (upd ne (set_prev (Some pe)) (upd pe (set_next (Some ne)) (setv l v E)))).
Lemma rm_facts : P pe = true /\ P pt = true /\ P ne = true /\ P nt = true /\ nx E pe = Some e /\ nx E pt = Some t /\ pv E ne = Some e /\ pv E nt = Some t.
Proof.
  pose proof rm_Pt as PT. destruct (l_pv _ _ _ _ W _ _ PE B1) as [Q1 Q2]. destruct (l_pv _ _ _ _ W _ _ PT B2) as [Q3 Q4].
  destruct (l_nx _ _ _ _ W _ _ PE B3) as [Q5 Q6]. destruct (l_nx _ _ _ _ W _ _ PT B4) as [Q7 Q8]. tauto.
Qed.
Lemma rm_apart : ne <> t /\ nt <> e /\ pe <> t /\ pt <> e.
Proof.
  destruct rm_facts as [Q1 [Q2 [Q3 [Q4 [Q5 [Q6 [Q7 Q8]]]]]]]. pose proof (l_apart _ _ _ _ W _ PE) as A. fold t in A. pose proof rm_Pt as PT.
  pose proof (l_ncl _ _ _ _ W _ _ PE B3) as D1. pose proof (l_ncl _ _ _ _ W _ _ PT B4) as D2.
  pose proof (l_ncl _ _ _ _ W _ _ Q1 Q5) as D3. pose proof (l_ncl _ _ _ _ W _ _ Q2 Q6) as D4.
  repeat split; intros ->; congruence.
Qed.
Lemma rm_rot : rot E e = Some (tw pe) /\ rot E t = Some (tw pt) /\ rot E ne = Some t /\ rot E nt = Some e.
Proof.
  destruct rm_facts as [_ [_ [_ [_ [_ [_ [Q7 Q8]]]]]]]. unfold rot. rewrite B1, B2, Q7, Q8. rewrite rm_tt. repeat split.
Qed.
Lemma rm_ok : remove_edge (Some e) E = Ok removed.
Proof.
  destruct rm_facts as [Q1 [Q2 [Q3 [Q4 [Q5 [Q6 [Q7 Q8]]]]]]]. destruct rm_apart as [X1 [X2 [X3 X4]]]. pose proof rm_Pt as PT.
  assert (LE : forall i, P i = true -> i < length E) by exact (l_len _ _ _ _ W).
  assert (LT : forall i, P i = true -> tw i < length E) by (intros i H; apply LE; exact (l_tw _ _ _ _ W _ H)).
  assert (TT : forall i, P i = true -> tn E (tw i) = Some i) by (intros i H; rewrite (l_tn _ _ _ _ W) by exact (l_tw _ _ _ _ W _ H); rewrite tw_tw; reflexivity).
  assert (TN : forall i, P i = true -> tn E i = Some (tw i)) by exact (l_tn _ _ _ _ W).
  unfold remove_edge. rewrite p_vertex_ok, VE by auto. cbn [obind]. rewrite p_twin_ok, TN by auto. cbn [obind]. fold t.
  destruct rm_rot as [R1 [R2 [R3 R4]]].
  rewrite (p_rot_ok _ _ (tw pt)) by (try exact R2; rewrite tw_tw; apply TN; exact Q2). cbn [obind].
  assert (SP : spin (S (length E)) (Some v) (Some t) (Some (tw pt)) E = Ok (setv l v E)).
  { destruct l as [|u l'] eqn:EL.
    - cbn [chain] in CY. assert (U : tw pt = t) by congruence. cbn [spin ptr_eqb]. rewrite U, Nat.eqb_refl. reflexivity.
    - destruct CY as [CY1 CY2]. assert (U : tw pt = u) by congruence. rewrite U. apply spin_ok; [exact CY2| |  |cbn [length] in LL |- *; clear - LL; lia].
      + apply NoDup_cons_iff in ND. tauto.
      + intros x y X R. assert (PX : P x = true) by (apply PL; right; exact X). destruct (rot_step _ _ _ _ W _ _ PX R) as [PY _]. apply TT. exact PY. }
  rewrite SP. cbn [obind]. clear SP.
  unfold p_rot_prev, p_rot_next. rewrite p_twin_ok by (rewrite setv_length; auto). cbn [obind]. rewrite setv_tn, TN by auto. fold t.
  rewrite p_next_ok by (rewrite setv_length; auto). cbn [obind]. rewrite setv_nx, B4.
  rewrite p_prev_ok by (rewrite setv_length; auto). cbn [obind]. rewrite setv_pv, B1.
  rewrite p_twin_ok by (rewrite setv_length; auto). cbn [obind]. rewrite setv_tn, TN by auto.
  rewrite p_twin_ok by (rewrite setv_length; auto). cbn [obind]. rewrite setv_tn, TN by auto. rewrite rm_tt.
  rewrite p_next_ok by (rewrite setv_length; auto). cbn [obind]. rewrite setv_nx, B3.
  rewrite p_prev_ok by (rewrite setv_length; auto). cbn [obind]. rewrite setv_pv, B2.
  rewrite p_twin_ok by (rewrite setv_length; auto). cbn [obind]. rewrite setv_tn, TN by auto.
  rewrite p_twin_ok by (rewrite setv_length; auto). cbn [obind]. rewrite setv_tn, TT by auto.
  rewrite assign_ok by (rewrite setv_length; auto). cbn [obind].
  rewrite p_twin_ok by (rewrite length_upd, setv_length; auto). cbn [obind]. autorewrite with vd. rewrite setv_tn, TT by auto.
  rewrite assign_ok by (rewrite length_upd, setv_length; auto). cbn [obind].
  rewrite p_twin_ok by (rewrite !length_upd, setv_length; auto). cbn [obind]. autorewrite with vd. rewrite setv_tn, TT by auto.
  rewrite assign_ok by (rewrite !length_upd, setv_length; auto). cbn [obind].
  rewrite p_twin_ok by (rewrite !length_upd, setv_length; auto). cbn [obind]. autorewrite with vd. rewrite setv_tn, TT by auto.
  rewrite assign_ok by (rewrite !length_upd, setv_length; auto). reflexivity.
Qed.
Lemma rm_length : length removed = length E.
Proof. unfold removed. rewrite !length_upd. apply setv_length. Qed.
Lemma rm_nx j : nx removed j = if pt =? j then Some nt else if pe =? j then Some ne else nx E j.
Proof.
  destruct rm_facts as [Q1 [Q2 [Q3 [Q4 _]]]]. unfold removed.
  rewrite nx_set_next by (rewrite !length_upd, setv_length; exact (l_len _ _ _ _ W _ Q2)). destruct (pt =? j); [reflexivity|].
  rewrite !nx_set_prev, nx_set_next by (rewrite setv_length; exact (l_len _ _ _ _ W _ Q1)). rewrite setv_nx. reflexivity.
Qed.
Lemma rm_pv j : pv removed j = if nt =? j then Some pt else if ne =? j then Some pe else pv E j.
Proof.
  destruct rm_facts as [Q1 [Q2 [Q3 [Q4 _]]]]. unfold removed. rewrite pv_set_next.
  rewrite pv_set_prev by (rewrite !length_upd, setv_length; exact (l_len _ _ _ _ W _ Q4)). destruct (nt =? j); [reflexivity|].
  rewrite pv_set_prev by (rewrite !length_upd, setv_length; exact (l_len _ _ _ _ W _ Q3)). destruct (ne =? j); [reflexivity|].
  rewrite pv_set_next. apply setv_pv.
Qed.
Lemma rm_vx j : vx removed j = if mem j l then Some v else vx E j.
Proof.
  unfold removed. rewrite vx_set_next, !vx_set_prev, vx_set_next. apply setv_vx. intros i I. apply (l_len _ _ _ _ W). apply PL. right. exact I.
Qed.
Lemma rm_fld {B : Type} (f : dart -> option B) j : (forall d o, f (set_vertex o d) = f d) -> (forall d o, f (set_next o d) = f d) -> (forall d o, f (set_prev o d) = f d) -> fld f removed j = fld f E j.
Proof.
  intros F1 F2 F3. unfold removed. rewrite <- (setv_fld f l v (fun d => F1 d _) E).
  assert (U : forall i g F k, (forall d, f (g d) = f d) -> fld f (upd i g F) k = fld f F k).
  { intros i g F k G. rewrite fld_upd. destruct (_ && _); [apply fld_ext; exact G|reflexivity]. }
  rewrite !U by auto. reflexivity.
Qed.
Lemma rm_cl j : cl removed j = cl E j. Proof. apply rm_fld; reflexivity. Qed.
Lemma rm_tn j : tn removed j = tn E j. Proof. apply rm_fld; reflexivity. Qed.
Lemma rm_col j : col removed j = col E j. Proof. apply rm_fld; reflexivity. Qed.

Definition live_rm (i : nat) : bool := P i && negb (i =? e) && negb (i =? t).
Lemma live_rm_iff i : live_rm i = true <-> P i = true /\ i <> e /\ i <> t.
Proof. unfold live_rm. destruct (P i), (Nat.eqb_spec i e), (Nat.eqb_spec i t); cbn; split; try discriminate; intuition congruence. Qed.
Lemma rm_wf : wfl C V live_rm removed.
Proof.
  destruct rm_facts as [Q1 [Q2 [Q3 [Q4 [Q5 [Q6 [Q7 Q8]]]]]]]. destruct rm_apart as [X1 [X2 [X3 X4]]]. pose proof rm_Pt as PT. pose proof rm_tt as TT.
  destruct rm_rot as [R1 [R2 [R3 R4]]].
  constructor.
  - intros i H. apply live_rm_iff in H. destruct H as [H1 [H2 H3]]. apply live_rm_iff. split; [exact (l_tw _ _ _ _ W _ H1)|]. split; intros K; [apply H3|apply H2].
    + unfold t. rewrite <- K, tw_tw. reflexivity.
    + apply tw_inj. exact K.
  - intros i H. apply live_rm_iff in H. rewrite rm_length. apply (l_len _ _ _ _ W). tauto.
  - intros i H. apply live_rm_iff in H. rewrite rm_tn. apply (l_tn _ _ _ _ W). tauto.
  - intros i H. apply live_rm_iff in H. rewrite rm_cl. apply (l_cl _ _ _ _ W). tauto.
  - intros i u H. apply live_rm_iff in H. rewrite rm_vx. destruct (mem i l); [intros K; assert (U : u = v) by congruence; subst u; exact (l_vx _ _ _ _ W _ _ PE VE)|]. apply (l_vx _ _ _ _ W). tauto.
  - intros i j H. apply live_rm_iff in H. destruct H as [H1 [H2 H3]]. rewrite rm_nx. destruct (Nat.eqb_spec pt i) as [EP|NP].
    + subst i. intros J. assert (J' : j = nt) by congruence. subst j. rewrite rm_pv, Nat.eqb_refl. split; [|reflexivity]. apply live_rm_iff. split; [exact Q4|]. split; [exact X2|]. intros K. rewrite K in Q8. congruence.
    + destruct (Nat.eqb_spec pe i) as [EQ|NQ].
      * subst i. intros J. assert (J' : j = ne) by congruence. subst j. rewrite rm_pv, Nat.eqb_refl. destruct (Nat.eqb_spec nt ne) as [K|_]; [exfalso; rewrite K in Q8; rewrite Q7 in Q8; assert (Y : e = t) by congruence; exact (tw_neq e (eq_sym Y))|].
        split; [|reflexivity]. apply live_rm_iff. split; [exact Q3|]. split; [|exact X1]. intros K. rewrite K in Q7. congruence.
      * intros J. destruct (l_nx _ _ _ _ W _ _ H1 J) as [J1 J2]. rewrite rm_pv.
        destruct (Nat.eqb_spec nt j) as [K|_]; [exfalso; subst j; congruence|]. destruct (Nat.eqb_spec ne j) as [K|_]; [exfalso; subst j; congruence|].
        split; [|exact J2]. apply live_rm_iff. split; [exact J1|]. split; intros K; subst j; congruence.
  - intros i j H. apply live_rm_iff in H. destruct H as [H1 [H2 H3]]. rewrite rm_pv. destruct (Nat.eqb_spec nt i) as [EP|NP].
    + subst i. intros J. assert (J' : j = pt) by congruence. subst j. rewrite rm_nx, Nat.eqb_refl. split; [|reflexivity]. apply live_rm_iff. split; [exact Q2|]. split; [exact X4|]. intros K. rewrite K in Q6. congruence.
    + destruct (Nat.eqb_spec ne i) as [EQ|NQ].
      * subst i. intros J. assert (J' : j = pe) by congruence. subst j. rewrite rm_nx, Nat.eqb_refl. destruct (Nat.eqb_spec pt pe) as [K|_]; [exfalso; rewrite K in Q6; rewrite Q5 in Q6; assert (Y : e = t) by congruence; exact (tw_neq e (eq_sym Y))|].
        split; [|reflexivity]. apply live_rm_iff. split; [exact Q1|]. split; [|exact X3]. intros K. rewrite K in Q5. congruence.
      * intros J. destruct (l_pv _ _ _ _ W _ _ H1 J) as [J1 J2]. rewrite rm_nx.
        destruct (Nat.eqb_spec pt j) as [K|_]; [exfalso; subst j; congruence|]. destruct (Nat.eqb_spec pe j) as [K|_]; [exfalso; subst j; congruence|].
        split; [|exact J2]. apply live_rm_iff. split; [exact J1|]. split; intros K; subst j; congruence.
  - intros i H. apply live_rm_iff in H. destruct H as [H1 [H2 H3]]. rewrite rm_vx, rm_pv.
    destruct (l_null _ _ _ _ W _ H1) as [N1 N2].
    destruct (mem_dec i l) as [[M1 ->]|[M1 ->]].
    + assert (NN : pv E i <> None) by (intros K; apply N2 in K; destruct (PL i (or_intror M1)) as [_ Y]; congruence).
      destruct (nt =? i); [split; discriminate|]. destruct (ne =? i); [split; discriminate|]. split; [discriminate|intros K; contradiction].
    + destruct (Nat.eqb_spec nt i) as [K|_]; [subst i; split; [intros Y; apply N1 in Y; congruence|discriminate]|].
      destruct (Nat.eqb_spec ne i) as [K|_]; [subst i; split; [intros Y; apply N1 in Y; congruence|discriminate]|]. split; assumption.
  - intros i H. apply live_rm_iff in H. destruct H as [H1 [H2 H3]]. rewrite rm_pv, rm_nx. destruct (l_null2 _ _ _ _ W _ H1) as [N1 N2].
    assert (A1 : nt = i -> nx E (tw i) <> None) by (intros K Y; apply N2 in Y; subst i; congruence).
    assert (A2 : ne = i -> nx E (tw i) <> None) by (intros K Y; apply N2 in Y; subst i; congruence).
    assert (A3 : pt = tw i -> pv E i <> None) by (intros K Y; apply N1 in Y; rewrite <- K in Y; congruence).
    assert (A4 : pe = tw i -> pv E i <> None) by (intros K Y; apply N1 in Y; rewrite <- K in Y; congruence).
    destruct (Nat.eqb_spec nt i), (Nat.eqb_spec ne i), (Nat.eqb_spec pt (tw i)), (Nat.eqb_spec pe (tw i)); split; intros; try discriminate; try (exfalso; intuition congruence); auto.
  - intros i j H. apply live_rm_iff in H. destruct H as [H1 [H2 H3]]. rewrite rm_nx, !rm_cl. destruct (Nat.eqb_spec pt i) as [K|_].
    + subst i. intros J. assert (J' : j = nt) by congruence. subst j. rewrite (l_ncl _ _ _ _ W _ _ PT B4). exact (l_ncl _ _ _ _ W _ _ Q2 Q6).
    + destruct (Nat.eqb_spec pe i) as [K|_].
      * subst i. intros J. assert (J' : j = ne) by congruence. subst j. rewrite (l_ncl _ _ _ _ W _ _ PE B3). exact (l_ncl _ _ _ _ W _ _ Q1 Q5).
      * intros J. exact (l_ncl _ _ _ _ W _ _ H1 J).
  - intros i j H. apply live_rm_iff in H. destruct H as [H1 [H2 H3]]. rewrite rm_nx, !rm_vx.
    assert (PL' : forall y, In y (t :: l) -> P y = true) by (intros y Y; apply PL; exact Y).
    destruct (Nat.eqb_spec pt i) as [K|NP].
    + subst i. intros J. assert (J' : j = nt) by congruence. subst j.
      assert (M1 : In (tw pt) l). { apply (cycle_rot _ _ _ _ W t l t _ PL' CY PT) in R2. destruct (proj1 R2 (or_introl eq_refl)) as [Y|Y]; [exfalso; apply X4; apply tw_inj; symmetry; exact Y|exact Y]. }
      apply mem_in in M1. rewrite M1. destruct (mem_dec nt l) as [[_ ->]|[_ ->]]; [reflexivity|]. rewrite (l_nvx _ _ _ _ W _ _ PT B4). rewrite TT. exact VE.
    + destruct (Nat.eqb_spec pe i) as [K|NQ].
      * subst i. intros J. assert (J' : j = ne) by congruence. subst j.
        assert (M1 : In ne l). { apply (cycle_rot _ _ _ _ W t l ne _ PL' CY Q3) in R3. destruct (proj2 R3 (or_introl eq_refl)) as [Y|Y]; [exfalso; apply X1; symmetry; exact Y|exact Y]. }
        apply mem_in in M1. rewrite M1. destruct (mem_dec (tw pe) l) as [[_ ->]|[_ ->]]; [reflexivity|].
        destruct (rot_step _ _ _ _ W _ _ PE R1) as [_ [_ [Y _]]]. rewrite Y. symmetry. exact VE.
      * intros J. destruct (l_nx _ _ _ _ W _ _ H1 J) as [J1 J2]. assert (R : rot E j = Some (tw i)) by (unfold rot; rewrite J2; reflexivity).
        pose proof (cycle_rot _ _ _ _ W t l j _ PL' CY J1 R) as M.
        assert (JT : j <> t) by (intros Y; rewrite Y in J2; congruence).
        assert (IT : tw i <> t) by (intros Y; apply tw_inj in Y; contradiction).
        assert (ML : mem j l = mem (tw i) l).
        { destruct (mem_dec j l) as [[M1 ->]|[M1 ->]]; destruct (mem_dec (tw i) l) as [[M2 ->]|[M2 ->]]; try reflexivity; exfalso; cbn [In] in M; intuition congruence. }
        rewrite ML. destruct (mem (tw i) l); [reflexivity|]. exact (l_nvx _ _ _ _ W _ _ H1 J).
  - intros i H. apply live_rm_iff in H. rewrite !rm_cl. apply (l_apart _ _ _ _ W). tauto.
Qed.
End Remove.

(* ---------- an edge is moved down ---------- *)
Definition opt_upd (o : option nat) (f : dart -> dart) (E : list dart) : list dart := match o with Some i => upd i f E | None => E end.
Definition is_at (o : option nat) (j : nat) : bool := match o with Some i => i =? j | None => false end.
Lemma opt_upd_length o f E : length (opt_upd o f E) = length E.
Proof. destruct o; [apply length_upd|reflexivity]. Qed.
Section Move.
Variables (C V : nat) (P : nat -> bool) (E : list dart) (it last : nat).
Hypothesis W : wfl C V P E.
Hypothesis EV1 : Nat.even it = true.
Hypothesis EV2 : Nat.even last = true.
Hypothesis PI : P it = true.
Hypothesis PA : P last = false.
Hypothesis PB : P (S last) = false.
Hypothesis LI : last < it.
Hypothesis NL1 : nx E it <> Some it.
Hypothesis NL2 : nx E (S it) <> Some (S it).
Lemma mv_tw1 : tw it = S it. Proof. unfold tw. rewrite EV1. reflexivity. Qed.
Lemma mv_tw2 : tw last = S last. Proof. unfold tw. rewrite EV2. reflexivity. Qed.
Lemma mv_tw1' : tw (S it) = it. Proof. rewrite <- mv_tw1. apply tw_tw. Qed.
Lemma mv_tw2' : tw (S last) = last. Proof. rewrite <- mv_tw2. apply tw_tw. Qed.
Lemma mv_PS : P (S it) = true. Proof. rewrite <- mv_tw1. exact (l_tw _ _ _ _ W _ PI). Qed.
Lemma mv_gap : S last < it.
Proof. apply Nat.even_spec in EV1, EV2. destruct EV1 as [x X], EV2 as [y Y]. clear - X Y LI. lia. Qed.
Lemma mv_len : S it < length E. Proof. exact (l_len _ _ _ _ W _ mv_PS). Qed.
Definition shifted (a b : dart) : list dart :=
  upd (S last) (set_twin (Some last)) (upd last (set_twin (Some (S last))) (upd (S last) (fun _ => b) (upd last (fun _ => a) E))).
Definition moved (a b : dart) : list dart :=
  opt_upd (pv E (S it)) (set_next (Some (S last))) (opt_upd (nx E it) (set_prev (Some last))
    (opt_upd (nx E (S it)) (set_prev (Some (S last))) (opt_upd (pv E it) (set_next (Some last)) (shifted a b)))).
Variables a b : dart.
Hypothesis NA : nth_error E it = Some a.
Hypothesis NB : nth_error E (S it) = Some b.
Lemma sh_length : length (shifted a b) = length E. Proof. unfold shifted. rewrite !length_upd. reflexivity. Qed.
Lemma sh_fld {B : Type} (f : dart -> option B) j : (forall d o, f (set_twin o d) = f d) ->
  fld f (shifted a b) j = if last =? j then fld f E it else if S last =? j then fld f E (S it) else fld f E j.
Proof.
  intros F. pose proof mv_len as ML. pose proof mv_gap as MG. unfold shifted.
  assert (U : forall i o F k, fld f (upd i (set_twin o) F) k = fld f F k).
  { intros i o G k. rewrite fld_upd. destruct (_ && _); [apply fld_ext; intros d; apply F|reflexivity]. }
  rewrite !U. clear W NL1 NL2. rewrite fld_set_dart by (rewrite length_upd; lia). rewrite fld_set_dart by lia.
  assert (FA : fld f E it = f a) by (unfold fld; rewrite NA; reflexivity). assert (FB : fld f E (S it) = f b) by (unfold fld; rewrite NB; reflexivity). rewrite FA, FB.
  destruct (Nat.eqb_spec (S last) j) as [J|J], (Nat.eqb_spec last j) as [K|K]; try reflexivity. exfalso. lia.
Qed.
Lemma sh_nx j : nx (shifted a b) j = if last =? j then nx E it else if S last =? j then nx E (S it) else nx E j. Proof. apply (sh_fld d_next). reflexivity. Qed.
Lemma sh_pv j : pv (shifted a b) j = if last =? j then pv E it else if S last =? j then pv E (S it) else pv E j. Proof. apply (sh_fld d_prev). reflexivity. Qed.
Lemma sh_tn j : tn (shifted a b) j = if last =? j then Some (S last) else if S last =? j then Some last else tn E j.
Proof.
  pose proof mv_len as ML. pose proof mv_gap as MG. unfold shifted. rewrite tn_set_twin by (rewrite !length_upd; lia). rewrite tn_set_twin by (rewrite !length_upd; lia).
  destruct (Nat.eqb_spec (S last) j) as [J|J], (Nat.eqb_spec last j) as [K|K]; try reflexivity; [exfalso; lia|].
  unfold tn. rewrite fld_set_dart by (rewrite !length_upd; lia). rewrite fld_set_dart by lia.
  apply Nat.eqb_neq in J, K. rewrite J, K. reflexivity.
Qed.
Lemma mv_other p : P p = true -> (last =? p) = false /\ (S last =? p) = false.
Proof. intros H. split; apply Nat.eqb_neq; intros K; subst p; congruence. Qed.
Lemma mv_nulls : (pv E it = None <-> nx E (S it) = None) /\ (pv E (S it) = None <-> nx E it = None).
Proof.
  pose proof (l_null2 _ _ _ _ W _ PI) as N1. pose proof (l_null2 _ _ _ _ W _ mv_PS) as N2. rewrite mv_tw1 in N1. rewrite mv_tw1' in N2. tauto.
Qed.
Lemma mv_ok : move_pair it last E = Ok (moved a b).
Proof.
  pose proof mv_len as ML. pose proof mv_gap as MG. destruct mv_nulls as [N1 N2]. pose proof mv_PS as PS.
  unfold move_pair. rewrite (deref_ok _ _ _ NA). cbn [obind]. rewrite assign_ok by lia. cbn [obind].
  assert (NB' : nth_error (upd last (fun _ => a) E) (S it) = Some b) by (rewrite nth_upd; destruct (Nat.eqb_spec last (S it)); [lia|exact NB]).
  rewrite (deref_ok _ _ _ NB'). cbn [obind]. rewrite assign_ok by (rewrite length_upd; lia). cbn [obind].
  rewrite assign_ok by (rewrite !length_upd; lia). cbn [obind]. rewrite assign_ok by (rewrite !length_upd; lia). cbn [obind]. fold (shifted a b).
  assert (SL : length (shifted a b) = length E) by exact sh_length.
  rewrite p_prev_ok by lia. cbn [obind]. rewrite sh_pv, Nat.eqb_refl.
  assert (S5 : match pv E it with None => Ok (shifted a b) | Some _ => try F <- assign (pv E it) (set_next (Some last)) (shifted a b); try n2 <- p_next F (Some (S last)); assign n2 (set_prev (Some (S last))) F end
     = Ok (opt_upd (nx E (S it)) (set_prev (Some (S last))) (opt_upd (pv E it) (set_next (Some last)) (shifted a b)))).
  { destruct (pv E it) as [p|] eqn:EP.
    - destruct (l_pv _ _ _ _ W _ _ PI EP) as [PP _]. destruct (mv_other _ PP) as [O1 O2]. pose proof (l_len _ _ _ _ W _ PP) as LP.
      rewrite assign_ok by lia. cbn [obind]. rewrite p_next_ok by (rewrite length_upd; lia). cbn [obind]. rewrite nx_set_next by lia. rewrite (Nat.eqb_sym p), O2.
      rewrite sh_nx, Nat.eqb_refl. assert (X : (last =? S last) = false) by (apply Nat.eqb_neq; lia). rewrite X.
      destruct (nx E (S it)) as [q|] eqn:EQ; [|exfalso; assert (Y : Some p = None) by (apply N1; reflexivity); discriminate].
      destruct (l_nx _ _ _ _ W _ _ PS EQ) as [PQ _]. pose proof (l_len _ _ _ _ W _ PQ) as LQ. rewrite assign_ok by (rewrite length_upd; lia). reflexivity.
    - rewrite (proj1 N1 eq_refl). reflexivity. }
  rewrite S5. cbn [obind]. clear S5. unfold moved.
  set (E5 := opt_upd (nx E (S it)) (set_prev (Some (S last))) (opt_upd (pv E it) (set_next (Some last)) (shifted a b))).
  assert (L5 : length E5 = length E) by (unfold E5; rewrite !opt_upd_length; exact SL).
  assert (P5 : pv E5 (S last) = pv E (S it)).
  { unfold E5. assert (X : (last =? S last) = false) by (apply Nat.eqb_neq; lia).
    assert (Y : pv (opt_upd (pv E it) (set_next (Some last)) (shifted a b)) (S last) = pv E (S it)) by (destruct (pv E it); cbn [opt_upd]; rewrite ?pv_set_next, sh_pv, X, Nat.eqb_refl; reflexivity).
    destruct (nx E (S it)) as [q|] eqn:EQ; cbn [opt_upd]; [|exact Y]. destruct (l_nx _ _ _ _ W _ _ PS EQ) as [PQ _]. destruct (mv_other _ PQ) as [O1 O2]. pose proof (l_len _ _ _ _ W _ PQ) as LQ.
    rewrite pv_set_prev by (rewrite opt_upd_length; lia). rewrite (Nat.eqb_sym q), O2. exact Y. }
  assert (N5 : nx E5 last = nx E it).
  { unfold E5. assert (Y : nx (opt_upd (pv E it) (set_next (Some last)) (shifted a b)) last = nx E it).
    { destruct (pv E it) as [p|] eqn:EP; cbn [opt_upd]; [|rewrite sh_nx, Nat.eqb_refl; reflexivity]. destruct (l_pv _ _ _ _ W _ _ PI EP) as [PP _]. destruct (mv_other _ PP) as [O1 O2]. pose proof (l_len _ _ _ _ W _ PP) as LP.
      rewrite nx_set_next by lia. rewrite (Nat.eqb_sym p), O1, sh_nx, Nat.eqb_refl. reflexivity. }
    destruct (nx E (S it)) as [q|]; cbn [opt_upd]; rewrite ?nx_set_prev; exact Y. }
  rewrite p_prev_ok by lia. cbn [obind]. rewrite P5. destruct (pv E (S it)) as [p|] eqn:EP.
  - destruct (l_pv _ _ _ _ W _ _ PS EP) as [PP _]. destruct (mv_other _ PP) as [O1 O2]. pose proof (l_len _ _ _ _ W _ PP) as LP.
    rewrite p_next_ok by lia. cbn [obind]. rewrite N5. destruct (nx E it) as [q|] eqn:EQ; [|exfalso; assert (Y : Some p = None) by (apply N2; reflexivity); discriminate].
    destruct (l_nx _ _ _ _ W _ _ PI EQ) as [PQ _]. destruct (mv_other _ PQ) as [O3 O4]. pose proof (l_len _ _ _ _ W _ PQ) as LQ.
    rewrite assign_ok by lia. cbn [obind]. rewrite p_prev_ok by (rewrite length_upd; lia). cbn [obind]. rewrite pv_set_prev by lia. rewrite (Nat.eqb_sym q), O4, P5.
    rewrite assign_ok by (rewrite length_upd; lia). reflexivity.
  - rewrite (proj1 N2 eq_refl). reflexivity.
Qed.
Definition live_mv (j : nat) : bool := (last =? j) || (S last =? j) || (P j && negb (j =? it) && negb (j =? S it)).
Definition from (j : nat) : nat := if last =? j then it else if S last =? j then S it else j.
Definition to (j : nat) : nat := if it =? j then last else if S it =? j then S last else j.
Lemma live_mv_iff j : live_mv j = true <-> j = last \/ j = S last \/ (P j = true /\ j <> it /\ j <> S it).
Proof. unfold live_mv. destruct (Nat.eqb_spec last j), (Nat.eqb_spec (S last) j), (P j), (Nat.eqb_spec j it), (Nat.eqb_spec j (S it)); cbn; split; try discriminate; intuition congruence. Qed.
Lemma from_live j : live_mv j = true -> P (from j) = true.
Proof.
  intros H. apply live_mv_iff in H. unfold from. destruct (Nat.eqb_spec last j); [exact PI|]. destruct (Nat.eqb_spec (S last) j); [exact mv_PS|]. intuition congruence.
Qed.
Lemma to_from j : live_mv j = true -> to (from j) = j.
Proof.
  intros H. apply live_mv_iff in H. unfold from, to. pose proof mv_gap as MG. clear W NL1 NL2.
  destruct (Nat.eqb_spec last j) as [K|K]; [rewrite Nat.eqb_refl; exact K|]. destruct (Nat.eqb_spec (S last) j) as [L|L].
  - destruct (Nat.eqb_spec it (S it)); [lia|]. rewrite Nat.eqb_refl. exact L.
  - destruct (Nat.eqb_spec it j); [exfalso; intuition congruence|]. destruct (Nat.eqb_spec (S it) j); [exfalso; intuition congruence|]. reflexivity.
Qed.
Lemma to_live j : P j = true -> live_mv (to j) = true.
Proof.
  intros H. apply live_mv_iff. unfold to. destruct (Nat.eqb_spec it j) as [K|K]; [left; reflexivity|]. destruct (Nat.eqb_spec (S it) j) as [L|L]; [right; left; reflexivity|]. right. right. split; [exact H|]. split; congruence.
Qed.
Lemma from_to j : P j = true -> from (to j) = j.
Proof.
  intros H. unfold from, to. pose proof mv_gap as MG. destruct (mv_other _ H) as [O1 O2]. clear W NL1 NL2.
  destruct (Nat.eqb_spec it j) as [K|K]; [rewrite Nat.eqb_refl; exact K|]. destruct (Nat.eqb_spec (S it) j) as [L|L].
  - destruct (Nat.eqb_spec last (S last)); [lia|]. rewrite Nat.eqb_refl. exact L.
  - rewrite O1, O2. reflexivity.
Qed.
Lemma from_tw j : live_mv j = true -> from (tw j) = tw (from j).
Proof.
  intros H. apply live_mv_iff in H. pose proof mv_gap as MG. unfold from. destruct (Nat.eqb_spec last j) as [K|K].
  - subst j. rewrite mv_tw2, mv_tw1, Nat.eqb_refl. destruct (Nat.eqb_spec last (S last)) as [Y|Y]; [exfalso; clear - Y; lia|reflexivity].
  - destruct (Nat.eqb_spec (S last) j) as [L|L]; [subst j; rewrite mv_tw2', mv_tw1', Nat.eqb_refl; reflexivity|].
    destruct (Nat.eqb_spec last (tw j)) as [Y|Y]; [exfalso; apply L; rewrite <- mv_tw2, Y; apply tw_tw|]. destruct (Nat.eqb_spec (S last) (tw j)) as [Z|Z]; [exfalso; apply K; rewrite <- mv_tw2', Z; apply tw_tw|reflexivity].
Qed.
Lemma to_tw j : P j = true -> to (tw j) = tw (to j).
Proof.
  intros H. pose proof (l_tw _ _ _ _ W _ H) as H'. rewrite <- (from_to _ H) at 1. rewrite <- from_tw by (apply to_live; exact H). rewrite to_from; [reflexivity|].
  apply live_mv_iff. pose proof (to_live _ H) as L. apply live_mv_iff in L. destruct L as [L|[L|[L1 [L2 L3]]]].
  - rewrite L, mv_tw2. tauto.
  - rewrite L, mv_tw2'. tauto.
  - right. right. split; [exact (l_tw _ _ _ _ W _ L1)|]. split; intros K; [apply L3|apply L2].
    + rewrite <- mv_tw1, <- K, tw_tw. reflexivity.
    + apply tw_inj. rewrite mv_tw1. exact K.
Qed.
Lemma mv_length : length (moved a b) = length E.
Proof. unfold moved. rewrite !opt_upd_length. apply sh_length. Qed.
Lemma mv_fld {B : Type} (f : dart -> option B) j : (forall d o, f (set_twin o d) = f d) -> (forall d o, f (set_next o d) = f d) -> (forall d o, f (set_prev o d) = f d) -> live_mv j = true -> fld f (moved a b) j = fld f E (from j).
Proof.
  intros F1 F2 F3 H. unfold moved.
  assert (U : forall o g F k, (forall d, f (g d) = f d) -> fld f (opt_upd o g F) k = fld f F k).
  { intros [i|] g F k G; cbn [opt_upd]; [|reflexivity]. rewrite fld_upd. destruct (_ && _); [apply fld_ext; exact G|reflexivity]. }
  rewrite !U by auto. rewrite sh_fld by exact F1. unfold from. destruct (last =? j); [reflexivity|]. destruct (S last =? j); reflexivity.
Qed.
Lemma mv_cl j : live_mv j = true -> cl (moved a b) j = cl E (from j). Proof. apply mv_fld; reflexivity. Qed.
Lemma mv_vx j : live_mv j = true -> vx (moved a b) j = vx E (from j). Proof. apply mv_fld; reflexivity. Qed.
Lemma mv_col j : live_mv j = true -> col (moved a b) j = col E (from j). Proof. apply mv_fld; reflexivity. Qed.
Lemma mv_tn j : live_mv j = true -> tn (moved a b) j = Some (tw j).
Proof.
  intros H. unfold moved. assert (U : forall o o' F k, tn (opt_upd o (set_next o') F) k = tn F k) by (intros [i|] o' F k; cbn [opt_upd]; autorewrite with vd; reflexivity).
  assert (U' : forall o o' F k, tn (opt_upd o (set_prev o') F) k = tn F k) by (intros [i|] o' F k; cbn [opt_upd]; autorewrite with vd; reflexivity).
  rewrite U, U', U', U, sh_tn. apply live_mv_iff in H. destruct (Nat.eqb_spec last j) as [K|K]; [subst j; rewrite mv_tw2; reflexivity|]. destruct (Nat.eqb_spec (S last) j) as [L|L]; [subst j; rewrite mv_tw2'; reflexivity|].
  apply (l_tn _ _ _ _ W). intuition congruence.
Qed.
Lemma opt_nx o k F j : length F = length E -> (forall i, o = Some i -> i < length E) -> nx (opt_upd o (set_next k) F) j = if is_at o j then k else nx F j.
Proof. intros L H. destruct o as [i|]; cbn [opt_upd is_at]; [|reflexivity]. rewrite nx_set_next by (rewrite L; apply H; reflexivity). reflexivity. Qed.
Lemma opt_pv o k F j : length F = length E -> (forall i, o = Some i -> i < length E) -> pv (opt_upd o (set_prev k) F) j = if is_at o j then k else pv F j.
Proof. intros L H. destruct o as [i|]; cbn [opt_upd is_at]; [|reflexivity]. rewrite pv_set_prev by (rewrite L; apply H; reflexivity). reflexivity. Qed.
Lemma opt_nx' o k F j : nx (opt_upd o (set_prev k) F) j = nx F j. Proof. destruct o; cbn [opt_upd]; autorewrite with vd; reflexivity. Qed.
Lemma opt_pv' o k F j : pv (opt_upd o (set_next k) F) j = pv F j. Proof. destruct o; cbn [opt_upd]; autorewrite with vd; reflexivity. Qed.
Lemma mv_nbr_apart : nx E it <> Some (S it) /\ nx E (S it) <> Some it.
Proof.
  pose proof mv_PS as PS. pose proof (l_apart _ _ _ _ W _ PI) as A. rewrite mv_tw1 in A. split; intros K.
  - apply A. symmetry. exact (l_ncl _ _ _ _ W _ _ PI K).
  - apply A. exact (l_ncl _ _ _ _ W _ _ PS K).
Qed.
Lemma is_at_iff o j : is_at o j = true <-> o = Some j.
Proof. destruct o as [i|]; cbn [is_at]; [|split; discriminate]. rewrite Nat.eqb_eq. split; congruence. Qed.
Lemma mv_nx j : live_mv j = true -> nx (moved a b) j = option_map to (nx E (from j)).
Proof.
  intros H. pose proof mv_PS as PS. unfold moved. rewrite opt_nx; [|rewrite !opt_upd_length; exact sh_length|intros i I; destruct (l_pv _ _ _ _ W _ _ PS I) as [I1 _]; exact (l_len _ _ _ _ W _ I1)].
  rewrite !opt_nx'. rewrite opt_nx; [|exact sh_length|intros i I; destruct (l_pv _ _ _ _ W _ _ PI I) as [I1 _]; exact (l_len _ _ _ _ W _ I1)]. rewrite sh_nx.
  destruct mv_nbr_apart as [Z1 Z2].
  assert (NP : forall p, P p = false -> is_at (pv E it) p = false /\ is_at (pv E (S it)) p = false).
  { intros p PP. split; destruct (is_at _ p) eqn:I; try reflexivity; apply is_at_iff in I; exfalso; [destruct (l_pv _ _ _ _ W _ _ PI I)|destruct (l_pv _ _ _ _ W _ _ PS I)]; congruence. }
  apply live_mv_iff in H. unfold from. destruct (Nat.eqb_spec last j) as [K|K].
  - subst j. destruct (NP _ PA) as [-> ->]. destruct (nx E it) as [x|] eqn:X; [|reflexivity]. cbn [option_map]. unfold to.
    destruct (Nat.eqb_spec it x); [congruence|]. destruct (Nat.eqb_spec (S it) x); [congruence|]. reflexivity.
  - destruct (Nat.eqb_spec (S last) j) as [L|L].
    + subst j. destruct (NP _ PB) as [-> ->]. destruct (nx E (S it)) as [x|] eqn:X; [|reflexivity]. cbn [option_map]. unfold to.
      destruct (Nat.eqb_spec it x); [congruence|]. destruct (Nat.eqb_spec (S it) x); [congruence|]. reflexivity.
    + assert (PJ : P j = true /\ j <> it /\ j <> S it) by (intuition congruence). destruct PJ as [PJ [J1 J2]].
      destruct (is_at (pv E (S it)) j) eqn:I1.
      * apply is_at_iff in I1. destruct (l_pv _ _ _ _ W _ _ PS I1) as [_ ->]. cbn [option_map]. unfold to. destruct (Nat.eqb_spec it (S it)) as [Y|_]; [exfalso; clear - Y; lia|]. rewrite Nat.eqb_refl. reflexivity.
      * destruct (is_at (pv E it) j) eqn:I2.
        { apply is_at_iff in I2. destruct (l_pv _ _ _ _ W _ _ PI I2) as [_ ->]. cbn [option_map]. unfold to. rewrite Nat.eqb_refl. reflexivity. }
        { destruct (nx E j) as [x|] eqn:X; [|reflexivity]. cbn [option_map]. destruct (l_nx _ _ _ _ W _ _ PJ X) as [_ X2]. unfold to.
          destruct (Nat.eqb_spec it x) as [Y|_]; [exfalso; rewrite <- Y in X2; apply is_at_iff in X2; congruence|]. destruct (Nat.eqb_spec (S it) x) as [Y|_]; [exfalso; rewrite <- Y in X2; apply is_at_iff in X2; congruence|]. reflexivity. }
Qed.
Lemma mv_pv j : live_mv j = true -> pv (moved a b) j = option_map to (pv E (from j)).
Proof.
  intros H. pose proof mv_PS as PS. unfold moved. rewrite opt_pv'. rewrite opt_pv; [|rewrite !opt_upd_length; exact sh_length|intros i I; destruct (l_nx _ _ _ _ W _ _ PI I) as [I1 _]; exact (l_len _ _ _ _ W _ I1)].
  rewrite opt_pv; [|rewrite !opt_upd_length; exact sh_length|intros i I; destruct (l_nx _ _ _ _ W _ _ PS I) as [I1 _]; exact (l_len _ _ _ _ W _ I1)]. rewrite opt_pv', sh_pv.
  destruct mv_nbr_apart as [Z1 Z2].
  assert (Y1 : pv E it <> Some it /\ pv E it <> Some (S it) /\ pv E (S it) <> Some it /\ pv E (S it) <> Some (S it)).
  { repeat split; intros Y; [destruct (l_pv _ _ _ _ W _ _ PI Y)|destruct (l_pv _ _ _ _ W _ _ PI Y)|destruct (l_pv _ _ _ _ W _ _ PS Y)|destruct (l_pv _ _ _ _ W _ _ PS Y)]; congruence. }
  destruct Y1 as [Y1 [Y2 [Y3 Y4]]].
  assert (NP : forall p, P p = false -> is_at (nx E it) p = false /\ is_at (nx E (S it)) p = false).
  { intros p PP. split; destruct (is_at _ p) eqn:I; try reflexivity; apply is_at_iff in I; exfalso; [destruct (l_nx _ _ _ _ W _ _ PI I)|destruct (l_nx _ _ _ _ W _ _ PS I)]; congruence. }
  apply live_mv_iff in H. unfold from. destruct (Nat.eqb_spec last j) as [K|K].
  - subst j. destruct (NP _ PA) as [-> ->]. destruct (pv E it) as [x|] eqn:X; [|reflexivity]. cbn [option_map]. unfold to.
    destruct (Nat.eqb_spec it x); [congruence|]. destruct (Nat.eqb_spec (S it) x); [congruence|]. reflexivity.
  - destruct (Nat.eqb_spec (S last) j) as [L|L].
    + subst j. destruct (NP _ PB) as [-> ->]. destruct (pv E (S it)) as [x|] eqn:X; [|reflexivity]. cbn [option_map]. unfold to.
      destruct (Nat.eqb_spec it x); [congruence|]. destruct (Nat.eqb_spec (S it) x); [congruence|]. reflexivity.
    + assert (PJ : P j = true /\ j <> it /\ j <> S it) by (intuition congruence). destruct PJ as [PJ [J1 J2]].
      destruct (is_at (nx E it) j) eqn:I1.
      * apply is_at_iff in I1. destruct (l_nx _ _ _ _ W _ _ PI I1) as [_ ->]. cbn [option_map]. unfold to. rewrite Nat.eqb_refl. reflexivity.
      * destruct (is_at (nx E (S it)) j) eqn:I2.
        { apply is_at_iff in I2. destruct (l_nx _ _ _ _ W _ _ PS I2) as [_ ->]. cbn [option_map]. unfold to. destruct (Nat.eqb_spec it (S it)) as [Y|_]; [exfalso; clear - Y; lia|]. rewrite Nat.eqb_refl. reflexivity. }
        { destruct (pv E j) as [x|] eqn:X; [|reflexivity]. cbn [option_map]. destruct (l_pv _ _ _ _ W _ _ PJ X) as [_ X2]. unfold to.
          destruct (Nat.eqb_spec it x) as [Y|_]; [exfalso; rewrite <- Y in X2; apply is_at_iff in X2; congruence|]. destruct (Nat.eqb_spec (S it) x) as [Y|_]; [exfalso; rewrite <- Y in X2; apply is_at_iff in X2; congruence|]. reflexivity. }
Qed.
Lemma live_mv_tw j : live_mv j = true -> live_mv (tw j) = true.
Proof. intros H. rewrite <- (to_from j H). rewrite <- to_tw by (apply from_live; exact H). apply to_live, (l_tw _ _ _ _ W), from_live, H. Qed.
Lemma map_to_inv o j : option_map to o = Some j -> exists i, o = Some i /\ to i = j.
Proof. destruct o as [i|]; cbn [option_map]; [|discriminate]. intros H. exists i. split; congruence. Qed.
Lemma map_to_none o : option_map to o = None <-> o = None.
Proof. destruct o; cbn; split; congruence. Qed.
Lemma mv_wf : wfl C V live_mv (moved a b).
Proof.
  constructor.
  - exact live_mv_tw.
  - intros i H. rewrite mv_length. apply live_mv_iff in H. pose proof mv_len as ML. pose proof mv_gap as MG. destruct H as [->|[->|[H _]]]; [clear - ML MG; lia|clear - ML MG; lia|exact (l_len _ _ _ _ W _ H)].
  - exact mv_tn.
  - intros i H. rewrite mv_cl by exact H. apply (l_cl _ _ _ _ W). apply from_live. exact H.
  - intros i v H. rewrite mv_vx by exact H. apply (l_vx _ _ _ _ W). apply from_live. exact H.
  - intros i j H. rewrite mv_nx by exact H. intros J. apply map_to_inv in J. destruct J as [k [K1 K2]]. destruct (l_nx _ _ _ _ W _ _ (from_live _ H) K1) as [K3 K4]. subst j.
    split; [apply to_live; exact K3|]. rewrite mv_pv by (apply to_live; exact K3). rewrite from_to by exact K3. rewrite K4. cbn [option_map]. rewrite to_from by exact H. reflexivity.
  - intros i j H. rewrite mv_pv by exact H. intros J. apply map_to_inv in J. destruct J as [k [K1 K2]]. destruct (l_pv _ _ _ _ W _ _ (from_live _ H) K1) as [K3 K4]. subst j.
    split; [apply to_live; exact K3|]. rewrite mv_nx by (apply to_live; exact K3). rewrite from_to by exact K3. rewrite K4. cbn [option_map]. rewrite to_from by exact H. reflexivity.
  - intros i H. rewrite mv_vx, mv_pv, map_to_none by exact H. apply (l_null _ _ _ _ W). apply from_live. exact H.
  - intros i H. rewrite mv_pv by exact H. rewrite mv_nx by (apply live_mv_tw; exact H). rewrite !map_to_none, from_tw by exact H. apply (l_null2 _ _ _ _ W). apply from_live. exact H.
  - intros i j H. rewrite mv_nx by exact H. intros J. apply map_to_inv in J. destruct J as [k [K1 K2]]. destruct (l_nx _ _ _ _ W _ _ (from_live _ H) K1) as [K3 K4]. subst j.
    rewrite !mv_cl by (try exact H; apply to_live; exact K3). rewrite from_to by exact K3. exact (l_ncl _ _ _ _ W _ _ (from_live _ H) K1).
  - intros i j H. rewrite mv_nx by exact H. intros J. apply map_to_inv in J. destruct J as [k [K1 K2]]. destruct (l_nx _ _ _ _ W _ _ (from_live _ H) K1) as [K3 K4]. subst j.
    rewrite !mv_vx by (try (apply live_mv_tw; exact H); apply to_live; exact K3). rewrite from_to by exact K3. rewrite from_tw by exact H. exact (l_nvx _ _ _ _ W _ _ (from_live _ H) K1).
  - intros i H. rewrite !mv_cl by (try exact H; apply live_mv_tw; exact H). rewrite from_tw by exact H. apply (l_apart _ _ _ _ W). apply from_live. exact H.
Qed.
End Move.
