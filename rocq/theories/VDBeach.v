(* The beach line and the event queue: which nodes and events the operations of
   the builder touch. *)
From Coq Require Import Sorting.Permutation.
From Verif Require Import Base Units Outcome VorSpec VorModel GeoSpec VorProofs VDModel VDSpec VDMem.
Local Open Scope nat_scope.

(* ---------- splitting ---------- *)
Lemma bl_split_spec id : forall l a n b, bl_split id l = Some (a, n, b) -> l = a ++ n :: b /\ n_id n = id.
Proof.
  induction l as [|m l IH]; intros a n b H; [discriminate|]. cbn [bl_split] in H. destruct (Nat.eqb_spec (n_id m) id) as [E|E].
  - assert (a = [] /\ n = m /\ b = l) as [-> [-> ->]] by (repeat split; congruence). split; [reflexivity|exact E].
  - destruct (bl_split id l) as [[[a' m'] b']|]; [|discriminate]. destruct (IH _ _ _ eq_refl) as [IH1 IH2].
    assert (a = m :: a' /\ n = m' /\ b = b') as [-> [-> ->]] by (repeat split; congruence). rewrite IH1. split; [reflexivity|exact IH2].
Qed.
Lemma bl_split_at : forall a n b, ~ In (n_id n) (map n_id a) -> bl_split (n_id n) (a ++ n :: b) = Some (a, n, b).
Proof.
  induction a as [|m a IH]; intros n b H; cbn [app bl_split]; [rewrite Nat.eqb_refl; reflexivity|]. cbn [map In] in H.
  destruct (Nat.eqb_spec (n_id m) (n_id n)) as [E|E]; [exfalso; apply H; left; exact E|]. rewrite IH by tauto. reflexivity.
Qed.
Lemma nodup_mid {A : Type} (a : list A) x b : NoDup (a ++ x :: b) -> ~ In x a /\ ~ In x b /\ NoDup (a ++ b).
Proof. intros H. apply NoDup_remove in H. rewrite in_app_iff in H. tauto. Qed.
Lemma bl_split_nodup a n b : NoDup (map n_id (a ++ n :: b)) -> bl_split (n_id n) (a ++ n :: b) = Some (a, n, b).
Proof. intros H. rewrite map_app in H. cbn [map] in H. apply bl_split_at. apply nodup_mid in H. tauto. Qed.
Lemma bl_split_in id l n : In n l -> n_id n = id -> NoDup (map n_id l) -> exists a b, bl_split id l = Some (a, n, b).
Proof. intros H E N. apply in_split in H. destruct H as [a [b ->]]. exists a, b. subst id. apply bl_split_nodup. exact N. Qed.
Lemma split_last_none {A : Type} (l : list A) : split_last l = None -> l = [].
Proof. destruct l as [|a l]; [reflexivity|]. cbn. destruct (split_last l) as [[b z]|]; discriminate. Qed.
Lemma split_last_some {A : Type} : forall (l b : list A) z, split_last l = Some (b, z) -> l = b ++ [z].
Proof.
  induction l as [|a l IH]; intros b z H; [discriminate|]. cbn [split_last] in H. destruct (split_last l) as [[b' z']|] eqn:E.
  - assert (b = a :: b' /\ z = z') as [-> ->] by (split; congruence). rewrite (IH _ _ eq_refl). reflexivity.
  - apply split_last_none in E. subst l. assert (b = [] /\ z = a) as [-> ->] by (split; congruence). reflexivity.
Qed.
Lemma split_last_snoc {A : Type} (l : list A) z : split_last (l ++ [z]) = Some (l, z).
Proof. induction l as [|a l IH]; [reflexivity|]. cbn [app split_last]. rewrite IH. reflexivity. Qed.

(* ---------- neighbours ---------- *)
Definition linked (R : option node -> node -> Prop) : option node -> list node -> Prop :=
  fix go p l := match l with [] => True | n :: t => R p n /\ go (Some n) t end.
Definition last_of (p : option node) (l : list node) : option node := match split_last l with None => p | Some (_, z) => Some z end.
Lemma last_of_cons p n l : last_of p (n :: l) = last_of (Some n) l.
Proof. unfold last_of. cbn. destruct (split_last l) as [[b z]|]; reflexivity. Qed.
Lemma last_of_snoc p l z : last_of p (l ++ [z]) = Some z.
Proof. unfold last_of. rewrite split_last_snoc. reflexivity. Qed.
Lemma linked_app R : forall l p r, linked R p (l ++ r) <-> linked R p l /\ linked R (last_of p l) r.
Proof.
  induction l as [|n l IH]; intros p r.
  - cbn. tauto.
  - cbn [app linked]. rewrite IH, last_of_cons. tauto.
Qed.

(* ---------- circle events ---------- *)
Definition node_circle (n : node) : list (nat * nat) := match n_circle n with Some c => [(n_id n, c)] | None => [] end.
Definition ev_circle (e : qev) : list (nat * nat) := if q_active e then [(q_node e, q_id e)] else [].
Definition circles (l : list node) : list (nat * nat) := flat_map node_circle l.
Definition actives (q : list qev) : list (nat * nat) := flat_map ev_circle q.
Lemma circles_app a b : circles (a ++ b) = circles a ++ circles b. Proof. apply flat_map_app. Qed.
Lemma circles_mid a n b : circles (a ++ n :: b) = circles a ++ node_circle n ++ circles b.
Proof. rewrite circles_app. reflexivity. Qed.
Lemma actives_app a b : actives (a ++ b) = actives a ++ actives b. Proof. apply flat_map_app. Qed.
Lemma in_actives i c q : In (i, c) (actives q) <-> exists e, In e q /\ q_active e = true /\ q_node e = i /\ q_id e = c.
Proof.
  unfold actives. rewrite in_flat_map. split.
  - intros [e [H K]]. exists e. unfold ev_circle in K. destruct (q_active e) eqn:A; cbn in K; [|tauto]. destruct K as [K|[]]. repeat split; try exact H; congruence.
  - intros [e [H [A [<- <-]]]]. exists e. split; [exact H|]. unfold ev_circle. rewrite A. left. reflexivity.
Qed.
Lemma in_circles i c l : In (i, c) (circles l) <-> exists n, In n l /\ n_id n = i /\ n_circle n = Some c.
Proof.
  unfold circles. rewrite in_flat_map. split.
  - intros [n [H K]]. exists n. unfold node_circle in K. destruct (n_circle n) as [d|] eqn:A; cbn in K; [|tauto]. destruct K as [K|[]]. repeat split; [exact H|congruence|congruence].
  - intros [n [H [<- A]]]. exists n. split; [exact H|]. unfold node_circle. rewrite A. left. reflexivity.
Qed.
Lemma q_deactivate_ok i c : forall q, In (i, c) (actives q) -> NoDup (map q_id q) ->
  exists q', q_deactivate c q = Some q' /\ Permutation (actives q) ((i, c) :: actives q') /\ map q_id q' = map q_id q.
Proof.
  induction q as [|e q IH]; intros H N; [destruct H|]. cbn [map] in N. pose proof (NoDup_cons_iff (q_id e) (map q_id q)) as NC. apply NC in N. destruct N as [N1 N2].
  cbn [q_deactivate]. destruct (Nat.eqb_spec (q_id e) c) as [E|E].
  - assert (K : ev_circle e = [(i, c)]).
    { unfold actives in H. cbn [flat_map] in H. apply in_app_iff in H. destruct H as [H|H].
      - unfold ev_circle in H |- *. destruct (q_active e); cbn in H; [|tauto]. destruct H as [H|[]]. rewrite H. reflexivity.
      - exfalso. apply (in_actives i c q) in H. destruct H as [f [H1 [_ [_ H2]]]]. apply N1. rewrite E, <- H2. apply in_map. exact H1. }
    eexists. split; [reflexivity|]. split; [|reflexivity]. unfold actives. cbn [flat_map]. rewrite K. reflexivity.
  - assert (H' : In (i, c) (actives q)).
    { unfold actives in H. cbn [flat_map] in H. apply in_app_iff in H. destruct H as [H|H]; [|exact H]. unfold ev_circle in H. destruct (q_active e); cbn in H; [|tauto]. destruct H as [H|[]]. congruence. }
    destruct (IH H' N2) as [q' [Q1 [Q2 Q3]]]. rewrite Q1. eexists. split; [reflexivity|]. split.
    + unfold actives. cbn [flat_map]. fold (actives q) (actives q'). rewrite Q2. symmetry. apply Permutation_middle.
    + cbn [map]. rewrite Q3. reflexivity.
Qed.
Lemma remove_nth_split {A : Type} : forall (l : list A) i x, nth_error l i = Some x -> exists a b, l = a ++ x :: b /\ remove_nth i l = a ++ b.
Proof.
  induction l as [|y l IH]; intros [|i] x H; cbn in H; try discriminate.
  - exists [], l. assert (y = x) by congruence. subst. split; reflexivity.
  - destruct (IH _ _ H) as [a [b [E1 E2]]]. exists (y :: a), b. cbn [remove_nth app]. rewrite E2, <- E1. split; reflexivity.
Qed.
Lemma top_index_lt G q : q <> [] -> exists e, nth_error q (top_index G q) = Some e.
Proof.
  intros H. destruct (nth_error q (top_index G q)) as [e|] eqn:E; [exists e; reflexivity|]. apply nth_error_None in E. unfold top_index in E.
  destruct q; [congruence|]. cbn [length] in E. lia.
Qed.
(* what pop_inactive does to the queue: only inactive events go *)
Lemma pop_inactive_spec G : forall fuel q, length q <= fuel ->
  let q' := pop_inactive fuel G q in
  actives q' = actives q /\ (NoDup (map q_id q) -> NoDup (map q_id q')) /\ (forall e, In e q' -> In e q) /\
  (q' = [] \/ exists e, nth_error q' (top_index G q') = Some e /\ q_active e = true).
Proof.
  induction fuel as [|fuel IH]; intros q L; cbn [pop_inactive].
  - assert (q = []) by (destruct q; [reflexivity|cbn in L; lia]). subst q. repeat split; auto.
  - destruct (nth_error q (top_index G q)) as [e|] eqn:E.
    + destruct (q_active e) eqn:A; cbn [negb]; cbn zeta.
      * repeat split; auto. right. exists e. split; assumption.
      * destruct (remove_nth_split _ _ _ E) as [a [b [E1 E2]]]. rewrite E2. assert (L2 : length (a ++ b) <= fuel) by (rewrite E1 in L; rewrite app_length in *; cbn [length] in L; lia).
        destruct (IH _ L2) as [H1 [H2 [H3 H4]]]. split; [|split; [|split]].
        -- rewrite H1, E1. unfold actives. rewrite !flat_map_app. cbn [flat_map]. assert (X : ev_circle e = []) by (unfold ev_circle; rewrite A; reflexivity). rewrite X. reflexivity.
        -- intros N. apply H2. rewrite E1, map_app in N. cbn [map] in N. apply nodup_mid in N. rewrite map_app. tauto.
        -- intros f F. apply H3 in F. rewrite E1. apply in_app_iff in F. apply in_app_iff. cbn [In]. tauto.
        -- exact H4.
    + cbn zeta. repeat split; auto. left. destruct q as [|e q]; [reflexivity|]. exfalso. destruct (top_index_lt G (e :: q)) as [f F]; [discriminate|]. congruence.
Qed.

(* events and nodes correspond *)
Record qinv (st : vst) : Prop := mk_qinv {
  qi_ids : NoDup (map n_id (st_beach st));
  qi_idlt : forall n, In n (st_beach st) -> n_id n < st_fresh st;
  qi_qids : NoDup (map q_id (st_queue st));
  qi_qlt : forall e, In e (st_queue st) -> q_id e < st_fresh st;
  qi_perm : Permutation (circles (st_beach st)) (actives (st_queue st))
}.
Lemma set_circle_same n : n_circle n = None -> set_circle None n = n.
Proof. destruct n as [i l r e c]. cbn. intros ->. reflexivity. Qed.
Lemma map_id_mid a n m b : n_id m = n_id n -> map n_id (a ++ m :: b) = map n_id (a ++ n :: b).
Proof. intros H. rewrite !map_app. cbn [map]. rewrite H. reflexivity. Qed.
Lemma in_mid {A : Type} (a b : list A) n m : forall x, In x (a ++ m :: b) -> x = m \/ In x (a ++ n :: b).
Proof. intros x H. apply in_app_iff in H. cbn [In] in H. destruct H as [H|[H|H]]; [right; apply in_app_iff; tauto|left; congruence|right; apply in_app_iff; cbn [In]; tauto]. Qed.
Lemma mid_lt a n m b k : n_id m = n_id n -> (forall x, In x (a ++ n :: b) -> n_id x < k) -> forall x, In x (a ++ m :: b) -> n_id x < k.
Proof. intros E H x X. destruct (in_mid a b n m x X) as [->|Y]; [rewrite E; apply H, in_elt|apply H, Y]. Qed.

Lemma deactivate_eff a n b st : qinv st -> st_beach st = a ++ n :: b ->
  exists st', deactivate_circle_event (n_id n) st = Ok st' /\ st_beach st' = a ++ set_circle None n :: b /\
    st_sites st' = st_sites st /\ st_ends st' = st_ends st /\ st_fresh st' = st_fresh st /\ st_out st' = st_out st /\ qinv st'.
Proof.
  intros Q B. unfold deactivate_circle_event. pose proof (qi_ids _ Q) as ND. rewrite B in ND |- *. rewrite (bl_split_nodup a n b ND).
  destruct (n_circle n) as [c|] eqn:C.
  - pose proof (qi_perm _ Q) as P. rewrite B, circles_mid in P. unfold node_circle in P. rewrite C in P. cbn [app] in P.
    assert (I : In (n_id n, c) (actives (st_queue st))) by (apply (Permutation_in _ P), in_app_iff; right; left; reflexivity).
    destruct (q_deactivate_ok _ _ _ I (qi_qids _ Q)) as [q' [Q1 [Q2 Q3]]]. rewrite Q1. eexists. split; [reflexivity|]. cbn. repeat split.
    + cbn. rewrite (map_id_mid a n) by reflexivity. exact ND.
    + cbn. apply (mid_lt a n); [reflexivity|]. rewrite <- B. exact (qi_idlt _ Q).
    + cbn. rewrite Q3. exact (qi_qids _ Q).
    + cbn. intros e He. apply (in_map q_id) in He. rewrite Q3 in He. apply in_map_iff in He. destruct He as [f [<- F]]. exact (qi_qlt _ Q f F).
    + cbn. rewrite circles_mid. cbn [node_circle n_circle set_circle app]. rewrite Q2 in P. apply (Permutation_cons_inv (a := (n_id n, c))).
      rewrite <- P. symmetry. rewrite Permutation_app_comm. cbn [app]. apply perm_skip. apply Permutation_app_comm.
  - exists st. rewrite (set_circle_same n C). repeat split; try assumption. all: exact (qi_ids _ Q) || exact (qi_idlt _ Q) || exact (qi_qids _ Q) || exact (qi_qlt _ Q) || exact (qi_perm _ Q).
Qed.
Lemma activate_eff G s1 s2 s3 a n b st : qinv st -> st_beach st = a ++ n :: b -> n_circle n = None ->
  (exists r, circle_exists s1 s2 s3 = Ok r) ->
  exists st' o, activate_circle_event G s1 s2 s3 (n_id n) st = Ok st' /\ st_beach st' = a ++ set_circle o n :: b /\
    st_sites st' = st_sites st /\ st_ends st' = st_ends st /\ st_fresh st <= st_fresh st' /\ st_out st' = st_out st /\ qinv st' /\
    (o <> None -> circle_exists s1 s2 s3 = Ok true /\ exists c, g_form G s1 s2 s3 = Some c).
Proof.
  intros Q B C [r R]. unfold activate_circle_event, circle_formation. rewrite R. cbn [obind]. destruct (if r then g_form G s1 s2 s3 else None) as [c|] eqn:F.
  - destruct r; [|discriminate]. pose proof (qi_ids _ Q) as ND. unfold bl_modify. rewrite B in ND |- *. rewrite (bl_split_nodup a n b ND). cbn [obind].
    eexists. exists (Some (st_fresh st)). split; [reflexivity|]. cbn. repeat split; try lia; try assumption; try (exists c; exact F).
    + cbn. rewrite (map_id_mid a n) by reflexivity. exact ND.
    + cbn. apply (mid_lt a n); [reflexivity|]. intros x X. rewrite <- B in X. apply (qi_idlt _ Q) in X. lia.
    + cbn. constructor; [|exact (qi_qids _ Q)]. intros X. apply in_map_iff in X. destruct X as [e [X1 X2]]. apply (qi_qlt _ Q) in X2. lia.
    + cbn. intros e [<-|X]; [cbn; lia|]. apply (qi_qlt _ Q) in X. lia.
    + cbn. pose proof (qi_perm _ Q) as P. rewrite B, circles_mid in P. unfold node_circle in P. rewrite C in P. cbn [app] in P. rewrite circles_mid. cbn.
      rewrite <- P. symmetry. apply Permutation_middle.
  - exists st, None. rewrite (set_circle_same n C). split; [reflexivity|]. split; [exact B|]. split; [reflexivity|]. split; [reflexivity|]. split; [lia|]. split; [reflexivity|]. split; [exact Q|]. congruence.
Qed.

(* ---------- existence of circles ---------- *)
Definition sev_int (s : sev) : Prop := pt_int (e_p0 s) /\ pt_int (e_p1 s).
Lemma circle_exists_ok s1 s2 s3 : sev_int s1 -> sev_int s2 -> sev_int s3 -> exists r, circle_exists s1 s2 s3 = Ok r.
Proof.
  intros [A0 A1] [B0 B1] [C0 C1]. unfold circle_exists, ce_ppp, ce_pps, ce_pss, ce_sss.
  destruct (sev_segment s1), (sev_segment s2), (sev_segment s3); cbn [Z.eqb negb]; rewrite ?ot_points_eq by assumption; cbn [obind]; try (eexists; reflexivity);
    repeat match goal with |- exists r, (if ?b then _ else _) = _ => destruct b; try (eexists; reflexivity) end.
Qed.
(* no circle event for three sites two neighbours of which are the same segment *)
Lemma circle_exists_12 s1 s2 s3 : sev_segment s1 = true -> sev_segment s2 = true -> e_sorted s1 = e_sorted s2 -> circle_exists s1 s2 s3 <> Ok true.
Proof.
  intros H1 H2 E. unfold circle_exists, ce_pss, ce_sss. rewrite H1, H2, E. destruct (sev_segment s3); rewrite Nat.eqb_refl; discriminate.
Qed.
Lemma circle_exists_23 s1 s2 s3 : sev_segment s2 = true -> sev_segment s3 = true -> e_sorted s2 = e_sorted s3 -> circle_exists s1 s2 s3 <> Ok true.
Proof.
  intros H1 H2 E. unfold circle_exists, ce_pss, ce_sss. rewrite H1, H2, E. destruct (sev_segment s1); rewrite Nat.eqb_refl, ?andb_false_r; discriminate.
Qed.
