(* Closing a figure, holes, new pairs of ends and the step to the next column. *)
From Verif Require Import Base Units Scan90Spec Poly90Spec Poly90Model Poly90Proofs Set90Model PolyFormGaps PolyFormModel PolyFormLemmas PolyFormHeap.
From Coq Require Import Arith.

Lemma st_ext X h n q pd C C' : st X h n q pd C -> (forall x y, x < X -> C x y = C' x y) -> st X h n q pd C'.
Proof. intros [S1 S2 S3 S4 S5 S6] E. constructor; try assumption. intros x y L. rewrite <- E by exact L. apply S5. exact L. Qed.

(* the region of a closed figure: its ring without its holes *)
Definition fv (h : heap) (x y : Z) (a : nat) : Z := RW h x y a - HS h x y a.
Definition shell (X : Z) (h : heap) (q pd : list nat) (a : nat) : Prop :=
  cl X h q a /\ ~ In a pd /\ (forall k, In k (hol h a) -> cl X h q k) /\ forall x y, 0 <= fv h x y a.
(* what is kept of the figures that do not end on the scan line *)
Definition frame (h h' : heap) (n : nat) (q pd q' pd' : list nat) : Prop :=
  (forall j, ~ In j q -> (j < n)%nat -> same_fig h h' j) /\
  (forall j, ~ In j (q ++ pd) -> (j < n)%nat -> h' j = h j) /\
  (forall j, In j q' -> In j q \/ (n <= j)%nat) /\
  (forall j, In j pd' -> In j (q ++ pd) \/ (n <= j)%nat).
Lemma shell_frame X h h' n q pd q' pd' a : shell X h q pd a -> (forall j, (n <= j)%nat -> h j = None) -> frame h h' n q pd q' pd' ->
  shell X h' q' pd' a /\ forall x y, fv h' x y a = fv h x y a.
Proof.
  intros [S1 [S2 [S3 S4]]] Fr [F1 [F2 [F3 F4]]].
  assert (Cl : forall k, cl X h q k -> cl X h' q' k /\ forall x y, RW h' x y k = RW h x y k).
  { intros k Hk. exact (cl_frame X h h' n q q' k Hk Fr F1 F3). }
  assert (La : (a < n)%nat).
  { destruct S1 as [_ [_ [R _]]]. destruct (ring_dom _ _ _ R) as [[t E] _]. destruct (Nat.lt_ge_cases a n) as [L|L]; [exact L|]. rewrite (Fr a L) in E. discriminate. }
  assert (Na : ~ In a (q ++ pd)) by (rewrite in_app_iff; destruct S1 as [N _]; tauto).
  assert (Ha : hol h' a = hol h a) by (unfold hol; rewrite (F2 a Na La); reflexivity).
  assert (Ef : forall x y, fv h' x y a = fv h x y a).
  { intros x y. unfold fv, HS. rewrite Ha, (proj2 (Cl a S1)). f_equal. apply zsum_ext_in. intros k Hk. apply Cl, S3, Hk. }
  split; [|exact Ef]. split; [apply Cl; exact S1|]. split; [intros K; destruct (F4 a K); [tauto|lia]|]. split.
  - rewrite Ha. intros k Hk. apply Cl, S3, Hk.
  - intros x y. rewrite Ef. apply S4.
Qed.

(* ---------- closing a figure ---------- *)
Lemma close_ring X h a t o y0 H xp l l' : mirror h a t o -> line_ok X true (t_line t) -> t_vert t = true -> t_vert o = false ->
  t_line t = X :: y0 :: l -> t_line o = H :: xp :: l' -> y0 <> H -> xp <> X ->
  ring_fig X h a /\ forall x y, RW h x y a = if x <? X then W h x y a else 0.
Proof.
  intros M [L1 [L2 [L3 L4]]] V1 V2 E1 E2 N1 N2.
  assert (Ev : Nat.Even (length (t_line t))).
  { apply Nat.even_spec. pose proof (mi_vert _ _ _ _ M) as Mv. rewrite V1, V2, <- even_vat in Mv. destruct (Nat.even _); [reflexivity|discriminate Mv]. }
  assert (R : ring_line X (t_line t)).
  { split; [exact Ev|]. split; [|split; [exact L2|exact L4]].
    assert (Er : t_line t = rev l' ++ [xp; H]).
    { rewrite <- (rev_involutive (t_line t)), <- (mi_line _ _ _ _ M), E2. cbn [rev]. apps. reflexivity. }
    destruct (rev l') as [|c [|d m]] eqn:Em; cbn [app] in Er.
    - rewrite E1 in Er. congruence.
    - rewrite Er in Ev. cbn [length] in Ev. destruct Ev as [z Ev]. lia.
    - rewrite E1 in Er. injection Er as <- <- El. exists X, y0, m, xp, H. rewrite E1, <- El. rewrite E1 in L3. split; [reflexivity|]. split; [exact L3|]. split; congruence. }
  split; [exists t, o; tauto|]. intros x y. unfold RW, W. rewrite (mi_this _ _ _ _ M), V1. destruct (Z.ltb_spec x X) as [Lx|Lx].
  - rewrite E1 in Ev |- *. apply (cyc_left X); [exact Ev|exact Lx|reflexivity].
  - apply (cyc_right X); assumption.
Qed.
Lemma ring_01 X h a t o y0 H xp l l' (P : Z -> Z -> Prop) : mirror h a t o -> line_ok X true (t_line t) -> t_vert t = true -> t_vert o = false ->
  t_line t = X :: y0 :: l -> t_line o = H :: xp :: l' -> y0 <> H -> xp <> X -> (forall x y, x < X -> W h x y a = 0 \/ W h x y a = 1) ->
  forall x y, RW h x y a = 0 \/ RW h x y a = 1.
Proof.
  intros M L V1 V2 E1 E2 N1 N2 K x y. destruct (close_ring X h a t o y0 H xp l l' M L V1 V2 E1 E2 N1 N2) as [_ E]. rewrite E.
  destruct (Z.ltb_spec x X) as [Lx|Lx]; [apply K; exact Lx|left; reflexivity].
Qed.

Lemma st_close_fig X h n u v a b C y0 H xp : st X h n (u ++ a :: b :: v) [] C -> pt h a = b ->
  hv h a true X y0 -> hv h b false H xp -> y0 <> H -> xp <> X ->
  cl X h (u ++ v) a /\ pt h b = a /\ ~ In a (u ++ v) /\ ~ In b (u ++ v) /\ a <> b /\ forall x y, RW h x y a = if x <? X then W h x y a else 0.
Proof.
  intros S Pab Va Vb N1 N2. pose proof (s_wfq _ _ _ _ _ _ S) as Qq.
  destruct (close_facts (pt h) (W h 0 0) (W h 0 0) a b u v Qq Pab) as [F1 [F2 [F3 [F4 [F5 F6]]]]].
  assert (Ha : In a (u ++ a :: b :: v)) by inl.
  assert (Na : ~ In a (u ++ v)) by (intros K; apply cn_in in K; lia). assert (Nb : ~ In b (u ++ v)) by (intros K; apply cn_in in K; lia).
  destruct (s_chain _ _ _ _ _ _ S a Ha) as [t [o [M L]]].
  destruct Va as [t1 [l [E1 [V1 L1]]]]. rewrite (mi_this _ _ _ _ M) in E1. injection E1 as <-.
  assert (Eb : t_other t = b) by (unfold pt in Pab; rewrite (mi_this _ _ _ _ M) in Pab; exact Pab).
  destruct Vb as [o1 [l' [E2 [V2 L2]]]]. pose proof (mi_other _ _ _ _ M) as Mo. rewrite Eb, E2 in Mo. injection Mo as ->.
  rewrite V1 in L. destruct (close_ring X h a t o y0 H xp l l' M L V1 V2 L1 L2 N1 N2) as [R E].
  split; [|split; [exact F1|split; [exact Na|split; [exact Nb|split; [exact F4|exact E]]]]].
  split; [exact Na|]. split; [rewrite Pab; exact Nb|]. split; [exact R|]. intros x y. rewrite E. destruct (Z.ltb_spec x X) as [Lx|Lx]; [|left; reflexivity].
  apply (cell_close (pt h) (W h x y) (HS h x y) a b u v Qq Pab (C x y)). apply (s_cell _ _ _ _ _ _ S x y Lx).
Qed.

Lemma cl_sub X h u a b v k : cl X h (u ++ a :: b :: v) k -> cl X h (u ++ v) k.
Proof.
  intros [A [B D]]. split; [intros K; apply A; revert K; rewrite !in_app_iff; cbn [In]; tauto|]. split; [|exact D].
  intros K. apply B. revert K. rewrite !in_app_iff. cbn [In]. tauto.
Qed.
Lemma in_del (u v : list nat) a b i : In i (u ++ v) -> In i (u ++ a :: b :: v).
Proof. rewrite !in_app_iff. cbn [In]. tauto. Qed.
Lemma cl_HS_pos X h q x y l : (forall k, In k l -> cl X h q k) -> 0 <= zsum (RW h x y) l.
Proof. intros H. apply zsum_ge. intros k Hk. destruct (H k Hk) as [_ [_ [_ K]]]. destruct (K x y); lia. Qed.
Lemma zsum_zero {A : Type} (f : A -> Z) l : (forall k, In k l -> f k = 0) -> zsum f l = 0.
Proof. intros H. induction l as [|a l IH]; [reflexivity|]. rewrite zsum_one, IH, (H a (or_introl eq_refl)); [reflexivity|]. intros k Hk. apply H. right. exact Hk. Qed.
Lemma cl_HS_right X h q x y l : (forall k, In k l -> cl X h q k) -> X <= x -> zsum (RW h x y) l = 0.
Proof.
  intros H L. apply zsum_zero. intros k Hk. destruct (H k Hk) as [_ [_ [R _]]]. apply (ring_right X); assumption.
Qed.

Lemma st_close_shell X h n u v a b C out y0 H xp : st X h n (u ++ a :: b :: v) [] C -> pt h a = b -> odd_len u = false ->
  hv h a true X y0 -> hv h b false H xp -> y0 <> H -> xp <> X ->
  exists h', join_chains h a b false out = Some (None, h', out ++ [a]) /\
    (forall j, j <> a -> j <> b -> h' j = h j) /\ shell X h' (u ++ v) [] a /\ hol h' a = hol h a ++ hol h b /\ same_fig h h' a /\
    st X h' n (u ++ v) [] (fun x y => C x y - fv h' x y a).
Proof.
  intros S Pab Od Va Vb N1 N2. destruct (st_close_fig X h n u v a b C y0 H xp S Pab Va Vb N1 N2) as [Ca [Pba [Na [Nb [Dab E]]]]].
  pose proof (s_wfq _ _ _ _ _ _ S) as Qq. assert (Ha : In a (u ++ a :: b :: v)) by inl. assert (Hb : In b (u ++ a :: b :: v)) by inl.
  destruct Va as [t [l [E1 [V1 L1]]]]. destruct Vb as [o [l' [E2 [V2 L2]]]].
  destruct (copy_holes_eq h a b t o E1 E2 Dab) as [h' [P0 [P1 [P2 P3]]]]. exists h'.
  assert (Eb : t_other t = b) by (unfold pt in Pab; rewrite E1 in Pab; exact Pab).
  split; [unfold join_chains; rewrite E1; cbn [bind]; rewrite Eb, Nat.eqb_refl, P0; reflexivity|].
  split; [exact P3|].
  assert (Sf : forall j, same_fig h h' j).
  { intros j. destruct (Nat.eq_dec j a) as [->|D1]; [intros t' Et; rewrite E1 in Et; injection Et as <-; eexists; exact P1|].
    destruct (Nat.eq_dec j b) as [->|D2]; [intros t' Et; rewrite E2 in Et; injection Et as <-; eexists; exact P2|]. apply same_eq, P3; assumption. }
  assert (Pt : forall j, pt h' j = pt h j).
  { intros j. unfold pt. destruct (Nat.eq_dec j a) as [->|D1]; [rewrite P1, E1; reflexivity|]. destruct (Nat.eq_dec j b) as [->|D2]; [rewrite P2, E2; reflexivity|]. rewrite P3 by assumption. reflexivity. }
  assert (RWe : forall x y j, RW h' x y j = RW h x y j).
  { intros x y j. unfold RW. destruct (Nat.eq_dec j a) as [->|D1]; [rewrite P1, E1; reflexivity|]. destruct (Nat.eq_dec j b) as [->|D2]; [rewrite P2, E2; reflexivity|]. rewrite P3 by assumption. reflexivity. }
  assert (Cl : forall k, cl X h (u ++ v) k -> cl X h' (u ++ v) k).
  { intros k [A [B [R D]]]. destruct (ring_frame X h h' k R (Sf _) (Sf _)) as [R' [R2 R3]]. split; [exact A|]. split; [rewrite R2; exact B|]. split; [exact R'|].
    intros x y. rewrite R3. apply D. }
  pose proof (s_hole _ _ _ _ _ _ S) as SH. rewrite app_nil_r in SH.
  assert (Ho : hol h' a = hol h a ++ hol h b) by (unfold hol; rewrite P1, E1, E2; reflexivity).
  assert (HC : forall k, In k (hol h' a) -> cl X h' (u ++ v) k).
  { intros k. rewrite Ho, in_app_iff. intros [Hk|Hk]; apply Cl, (cl_sub X h u a b v); [exact (SH a Ha k Hk)|exact (SH b Hb k Hk)]. }
  assert (HSa : forall x y, HS h' x y a = HS h x y a + HS h x y b).
  { intros x y. unfold HS. rewrite Ho, PolyFormGaps.zsum_app. rewrite !(zsum_ext_in (RW h' x y) (RW h x y)) by (intros; apply RWe). reflexivity. }
  assert (Fv : forall x y, x < X -> fv h' x y a = W h x y a - HS h x y a - HS h x y b).
  { intros x y Lx. unfold fv. rewrite HSa, RWe, E. replace (x <? X) with true by lia. lia. }
  assert (Ce : forall x y, x < X -> 0 <= fv h' x y a /\ cell (pt h) (W h x y) (HS h x y) (u ++ v) (C x y - fv h' x y a)).
  { intros x y Lx. rewrite (Fv x y Lx). destruct (cell_close (pt h) (W h x y) (HS h x y) a b u v Qq Pab (C x y) (s_cell _ _ _ _ _ _ S x y Lx)) as [_ K].
    rewrite Od in K. exact K. }
  split; [|split; [exact Ho|split; [apply Sf|constructor]]].
  - split; [apply Cl; exact Ca|]. split; [intros []|]. split; [exact HC|]. intros x y. destruct (Z_lt_dec x X) as [Lx|Lx]; [apply Ce; exact Lx|].
    unfold fv, HS. rewrite (cl_HS_right X h' (u ++ v)) by (try exact HC; lia). rewrite RWe, E. replace (x <? X) with false by lia. lia.
  - intros j L. pose proof (s_fresh _ _ _ _ _ _ S j L) as F. rewrite P3; [exact F| |]; intros ->; congruence.
  - intros i Hi. assert (In i (u ++ a :: b :: v)) by (apply in_del; exact Hi). apply (chain_frame X h h' i); [apply (s_chain _ _ _ _ _ _ S); assumption| |].
    + apply P3; intros ->; tauto.
    + apply P3; intros K; pose proof (close_wfq (pt h) (W h 0 0) (W h 0 0) a b u v Qq Pab) as [_ Q]; destruct (Q i Hi) as [Q1 _]; rewrite K in Q1; tauto.
  - pose proof (close_wfq (pt h) (W h 0 0) (W h 0 0) a b u v Qq Pab) as [Q1 Q2]. split; [exact Q1|]. intros i Hi. rewrite !Pt. apply Q2. exact Hi.
  - apply (bal_ext (pt h)); [apply (close_bal (pt h) (W h 0 0) (W h 0 0) a b u v Qq Pab), (s_bal _ _ _ _ _ _ S)|]. intros i _. apply Pt.
  - intros x y Lx. apply (cell_ext (pt h) (pt h') (W h x y) (W h' x y) (HS h x y) (HS h' x y)); [|apply Ce; exact Lx].
    intros i Hi. assert (Ei : h' i = h i) by (apply P3; intros ->; tauto). split; [apply Pt|]. unfold W, HS, hol. rewrite Ei. split; [reflexivity|].
    apply zsum_ext_in. intros k _. apply RWe.
  - intros i Hi k Hk. rewrite app_nil_r in Hi. assert (Ei : h' i = h i) by (apply P3; intros ->; tauto). unfold hol in Hk. rewrite Ei in Hk.
    apply Cl, (cl_sub X h u a b v), (SH i (in_del u v a b i Hi) k Hk).
Qed.

(* ---------- a closed hole that waits for its place ---------- *)
Definition PH (h : heap) (x y : Z) (pd : list nat) : Z :=
  match pd with [] => 0 | a :: _ => RW h x y a + zsum (HS h x y) pd end.
Definition pend (X : Z) (h : heap) (u v : list nat) (a b : nat) : Prop :=
  odd_len u = true /\ pt h a = b /\ a <> b /\ (exists y0, hv h a true X y0) /\ (exists t, h b = Some t) /\ cl X h (u ++ v) a /\ ~ In b (u ++ v) /\
  forall x y, x < X -> 0 <= PH h x y [a; b] /\ PH h x y [a; b] + zsum (HS h x y) (u ++ v) <= 1 /\ (0 < PH h x y [a; b] -> gap (pt h) (W h x y) u v).
Lemma st_close_hole X h n u v a b C out y0 H xp : st X h n (u ++ a :: b :: v) [] C -> pt h a = b -> odd_len u = true ->
  hv h a true X y0 -> hv h b false H xp -> y0 <> H -> xp <> X ->
  join_chains h a b true out = Some (Some a, h, out) /\ st X h n (u ++ v) [a; b] (fun x y => C x y + PH h x y [a; b]) /\ pend X h u v a b.
Proof.
  intros S Pab Od Va Vb N1 N2. destruct (st_close_fig X h n u v a b C y0 H xp S Pab Va Vb N1 N2) as [Ca [Pba [Na [Nb [Dab E]]]]].
  pose proof (s_wfq _ _ _ _ _ _ S) as Qq. assert (Ha : In a (u ++ a :: b :: v)) by inl. assert (Hb : In b (u ++ a :: b :: v)) by inl.
  assert (Hp : forall x y, x < X -> PH h x y [a; b] = W h x y a + HS h x y a + HS h x y b).
  { intros x y Lx. unfold PH. rewrite !zsum_one, E. replace (x <? X) with true by lia. unfold zsum. cbn [fold_right]. lia. }
  assert (Ce : forall x y, x < X -> 0 <= PH h x y [a; b] /\ PH h x y [a; b] + zsum (HS h x y) (u ++ v) <= 1 /\ (0 < PH h x y [a; b] -> gap (pt h) (W h x y) u v) /\
    cell (pt h) (W h x y) (HS h x y) (u ++ v) (C x y + PH h x y [a; b])).
  { intros x y Lx. rewrite (Hp x y Lx). destruct (cell_close (pt h) (W h x y) (HS h x y) a b u v Qq Pab (C x y) (s_cell _ _ _ _ _ _ S x y Lx)) as [_ K].
    rewrite Od in K. exact K. }
  split; [|split; [constructor|]].
  - destruct Va as [t [l [E1 _]]]. unfold join_chains. rewrite E1. cbn [bind]. unfold pt in Pab. rewrite E1 in Pab. rewrite Pab, Nat.eqb_refl. reflexivity.
  - apply (s_fresh _ _ _ _ _ _ S).
  - intros i Hi. apply (s_chain _ _ _ _ _ _ S), in_del, Hi.
  - apply (close_wfq (pt h) (W h 0 0) (W h 0 0) a b u v Qq Pab).
  - apply (close_bal (pt h) (W h 0 0) (W h 0 0) a b u v Qq Pab), (s_bal _ _ _ _ _ _ S).
  - intros x y Lx. apply Ce. exact Lx.
  - intros i Hi k Hk. apply (cl_sub X h u a b v). apply (s_hole _ _ _ _ _ _ S i); [|exact Hk]. rewrite app_nil_r. revert Hi. rewrite !in_app_iff. cbn [In]. tauto.
  - split; [exact Od|]. split; [exact Pab|]. split; [exact Dab|]. split; [exists y0; exact Va|]. split; [destruct Vb as [t [l [Et _]]]; exists t; exact Et|].
    split; [exact Ca|]. split; [exact Nb|]. intros x y Lx. destruct (Ce x y Lx) as [K1 [K2 [K3 _]]]. tauto.
Qed.

(* addHole without fracturing *)
Lemma add_hole_heap h i a b ti ta tb : h i = Some ti -> h a = Some ta -> h b = Some tb -> t_other ta = b -> i <> a -> i <> b -> a <> b ->
  exists h', add_hole h i a false = Some (i, h') /\
    h' i = Some (with_holes ti (((t_holes ti ++ [a]) ++ t_holes ta) ++ t_holes tb)) /\ h' a = Some (with_holes ta []) /\ h' b = Some (with_holes tb []) /\
    forall j, j <> i -> j <> a -> j <> b -> h' j = h j.
Proof.
  intros Hi Ha Hb Eo D1 D2 D3. unfold add_hole. rewrite Ha. cbn [bind]. rewrite Hi, Eo. cbn [bind].
  set (h0 := hset h i (with_holes ti (t_holes ti ++ [a]))).
  destruct (copy_holes_eq h0 i a (with_holes ti (t_holes ti ++ [a])) ta) as [h1 [E1 [A1 [A2 A3]]]]; [apply hset_eq|unfold h0; hh; exact Ha|exact D1|].
  rewrite E1. cbn [bind].
  destruct (copy_holes_eq h1 i b _ tb A1) as [h2 [E2 [B1 [B2 B3]]]]; [rewrite A3 by congruence; unfold h0; hh; exact Hb|exact D2|].
  rewrite E2. cbn [bind]. exists h2. split; [reflexivity|]. split; [rewrite B1; reflexivity|]. split; [rewrite B3 by congruence; exact A2|]. split; [exact B2|].
  intros j J1 J2 J3. rewrite B3, A3 by assumption. unfold h0. hh. reflexivity.
Qed.
Lemma st_attach X h n q a b i C : st X h n q [a; b] C -> In i q -> cl X h q a -> pt h a = b -> a <> b -> (exists t, h b = Some t) -> ~ In b q ->
  (forall x y, x < X -> 0 <= PH h x y [a; b] /\ PH h x y [a; b] + zsum (HS h x y) q <= 1 /\ (0 < PH h x y [a; b] -> sgap (pt h) (W h x y) q i)) ->
  exists h', add_hole h i a false = Some (i, h') /\ st X h' n q [] (fun x y => C x y - PH h x y [a; b]) /\
    frame h h' n q [a; b] q [] /\ (forall j v k x, hv h j v k x -> hv h' j v k x) /\
    (forall j, same_fig h h' j) /\ (forall j k, In j q -> In k (hol h' j) -> k = a \/ exists j', In j' (q ++ [a; b]) /\ In k (hol h j')).
Proof.
  intros S Hi Ca Pab Dab [tb Hb] Nb Hc. pose proof (s_wfq _ _ _ _ _ _ S) as Qq. pose proof Qq as [Nq Q].
  destruct (s_chain _ _ _ _ _ _ S i Hi) as [ti [oi [Mi Li]]]. destruct Ca as [Na [Na' [Ra Ra']]]. destruct (ring_dom _ _ _ Ra) as [[ta Ha] _].
  assert (Eo : t_other ta = b) by (unfold pt in Pab; rewrite Ha in Pab; exact Pab).
  assert (D1 : i <> a) by (intros ->; tauto). assert (D2 : i <> b) by (intros ->; tauto).
  pose proof (mi_this _ _ _ _ Mi) as Ei.
  destruct (add_hole_heap h i a b ti ta tb Ei Ha Hb Eo D1 D2 Dab) as [h' [P0 [P1 [P2 [P3 P4]]]]]. exists h'. split; [exact P0|].
  assert (Fg : forall j t, h j = Some t -> exists hs, h' j = Some (mk_tail (t_line t) (t_vert t) (t_other t) hs)).
  { intros j t Et. destruct (Nat.eq_dec j i) as [->|J1]; [rewrite Ei in Et; injection Et as <-; eexists; exact P1|].
    destruct (Nat.eq_dec j a) as [->|J2]; [rewrite Ha in Et; injection Et as <-; eexists; exact P2|].
    destruct (Nat.eq_dec j b) as [->|J3]; [rewrite Hb in Et; injection Et as <-; eexists; exact P3|].
    apply (same_eq h h' j); [apply P4; assumption|exact Et]. }
  assert (Fn : forall j, h j = None -> h' j = None).
  { intros j En. rewrite P4; [exact En| | |]; intros ->; congruence. }
  assert (Vw : forall j, pt h' j = pt h j /\ (forall x y, W h' x y j = W h x y j) /\ forall x y, RW h' x y j = RW h x y j).
  { intros j. unfold pt, W, RW. destruct (h j) as [t|] eqn:Et; [destruct (Fg j t Et) as [hs ->]; tauto|rewrite (Fn j Et); tauto]. }
  assert (Cl : forall k, cl X h q k -> cl X h' q k).
  { intros k [A [B [R D]]]. destruct (ring_frame X h h' k R) as [R' [R2 R3]]; [intros t Et; apply Fg; exact Et|intros t Et; apply Fg; exact Et|].
    split; [exact A|]. split; [rewrite R2; exact B|]. split; [exact R'|]. intros x y. rewrite R3. apply D. }
  assert (Hol_i : hol h' i = ((hol h i ++ [a]) ++ hol h a) ++ hol h b) by (unfold hol; rewrite P1, Ei, Ha, Hb; reflexivity).
  assert (Hol_o : forall j, In j q -> j <> i -> hol h' j = hol h j) by (intros j Hj Dj; unfold hol; rewrite P4; [reflexivity|exact Dj| |]; intros ->; tauto).
  assert (RWe : forall x y l, zsum (RW h' x y) l = zsum (RW h x y) l) by (intros x y l; apply zsum_ext_in; intros k _; apply Vw).
  split; [constructor|split; [|split; [|split]]].
  - intros j L. apply Fn. apply (s_fresh _ _ _ _ _ _ S j L).
  - intros j Hj. destruct (s_chain _ _ _ _ _ _ S j Hj) as [t [o [M L]]]. destruct (Fg j t (mi_this _ _ _ _ M)) as [hs1 E1]. destruct (Fg _ o (mi_other _ _ _ _ M)) as [hs2 E2].
    eexists. eexists. split; [constructor; [exact E1|exact E2|..]|]; cbn [t_line t_vert t_other]; [exact (mi_back _ _ _ _ M)|exact (mi_line _ _ _ _ M)|exact (mi_vert _ _ _ _ M)|exact L].
  - split; [exact Nq|]. intros j Hj. destruct (Vw j) as [-> _]. destruct (Vw (pt h j)) as [-> _]. apply Q. exact Hj.
  - apply (bal_ext (pt h)); [apply (s_bal _ _ _ _ _ _ S)|]. intros j _. apply Vw.
  - intros x y Lx. destruct (Hc x y Lx) as [K1 [K2 K3]].
    apply (cell_ext (pt h) (pt h') (W h x y) (W h' x y) (HS h' x y) (HS h' x y)); [intros j _; destruct (Vw j) as [V1 [V2 _]]; auto|].
    apply (cell_attach (pt h) (W h x y) (HS h x y) (HS h' x y) q (C x y) (PH h x y [a; b]) i Nq Hi (s_cell _ _ _ _ _ _ S x y Lx) K1 K2 K3).
    + unfold HS at 1. rewrite RWe, Hol_i, !PolyFormGaps.zsum_app. unfold PH. rewrite !zsum_one. unfold HS. unfold zsum. cbn [fold_right]. lia.
    + intros j Hj Dj. unfold HS. rewrite RWe, (Hol_o j Hj Dj). reflexivity.
  - intros j Hj k Hk. rewrite app_nil_r in Hj. apply Cl. pose proof (s_hole _ _ _ _ _ _ S) as SH. destruct (Nat.eq_dec j i) as [->|Dj].
    + rewrite Hol_i, !in_app_iff in Hk. cbn [In] in Hk. destruct Hk as [[[Hk|[<-|[]]]|Hk]|Hk].
      * apply (SH i); [apply in_or_app; left; exact Hi|exact Hk].
      * repeat split; assumption.
      * apply (SH a); [apply in_or_app; right; left; reflexivity|exact Hk].
      * apply (SH b); [apply in_or_app; right; right; left; reflexivity|exact Hk].
    + rewrite (Hol_o j Hj Dj) in Hk. apply (SH j); [apply in_or_app; left; exact Hj|exact Hk].
  - split; [intros j _ _ t Et; apply Fg; exact Et|]. split; [|split; [intros j Hj; left; exact Hj|intros j []]].
    intros j Hj _. rewrite in_app_iff in Hj. cbn [In] in Hj. apply P4; intros ->; tauto.
  - intros j v k x [t [l [E1 [E2 E3]]]]. destruct (Fg j t E1) as [hs E4]. eexists. exists l. split; [exact E4|]. cbn [t_vert t_line]. tauto.
  - intros j t Et. apply Fg. exact Et.
  - intros j k Hj Hk. destruct (Nat.eq_dec j i) as [->|Dj].
    + rewrite Hol_i, !in_app_iff in Hk. cbn [In] in Hk. destruct Hk as [[[Hk|[<-|[]]]|Hk]|Hk]; [right; exists i|left; reflexivity|right; exists a|right; exists b];
        (split; [rewrite in_app_iff; cbn [In]; tauto|exact Hk]).
    + rewrite (Hol_o j Hj Dj) in Hk. right. exists j. split; [rewrite in_app_iff; tauto|exact Hk].
Qed.

(* ---------- a new pair of ends ---------- *)
Definition pair_heap (h : heap) (n : nat) (X L : Z) : heap :=
  hset (hset h n (mk_tail [X; L] true (n + 1) [])) (n + 1) (mk_tail [L; X] false n []).
Lemma st_create X h n u v pd C L : st X h n (u ++ v) pd C -> is_int X -> is_int L -> (forall j, In j pd -> exists t, h j = Some t) ->
  st X (pair_heap h n X L) (n + 2) (u ++ (n + 1)%nat :: n :: v) pd C /\
  (forall j, (j < n)%nat -> pair_heap h n X L j = h j) /\ hv (pair_heap h n X L) n true X L /\ hv (pair_heap h n X L) (n + 1) false L X.
Proof.
  intros S IX IL Hpd. pose proof (s_wfq _ _ _ _ _ _ S) as Qq. set (h' := pair_heap h n X L).
  assert (D : (n <> n + 1)%nat) by lia.
  assert (E1 : h' n = Some (mk_tail [X; L] true (n + 1) [])) by (unfold h', pair_heap; hh; reflexivity).
  assert (E2 : h' (n + 1)%nat = Some (mk_tail [L; X] false n [])) by (unfold h', pair_heap; hh; reflexivity).
  assert (E3 : forall j, (j < n)%nat -> h' j = h j) by (intros j Lj; unfold h', pair_heap; rewrite !hset_ne by lia; reflexivity).
  assert (Dom : forall i, In i (u ++ v) -> (i < n)%nat).
  { intros i Hi. destruct (s_chain _ _ _ _ _ _ S i Hi) as [t [o [M _]]]. apply (st_lt _ _ _ _ _ _ _ _ S (mi_this _ _ _ _ M)). }
  assert (Na : ~ In (n + 1)%nat (u ++ v)) by (intros K; apply Dom in K; lia). assert (Nb : ~ In n (u ++ v)) by (intros K; apply Dom in K; lia).
  assert (Pt : forall i, In i (u ++ v) -> pt h' i = pt h i) by (intros i Hi; unfold pt; rewrite E3 by (apply Dom; exact Hi); reflexivity).
  assert (Pa : pt h' (n + 1)%nat = n) by (unfold pt; rewrite E2; reflexivity). assert (Pb : pt h' n = (n + 1)%nat) by (unfold pt; rewrite E1; reflexivity).
  assert (Inq : forall i, In i (u ++ (n + 1)%nat :: n :: v) -> i = (n + 1)%nat \/ i = n \/ In i (u ++ v)).
  { intros i. rewrite !in_app_iff. cbn [In]. intuition congruence. }
  assert (Cl : forall k, cl X h (u ++ v) k -> cl X h' (u ++ (n + 1)%nat :: n :: v) k /\ forall x y, RW h' x y k = RW h x y k).
  { intros k Hk. apply (cl_frame X h h' n (u ++ v) _ k Hk (s_fresh _ _ _ _ _ _ S)).
    - intros j _ Lj. apply same_eq, E3, Lj.
    - intros j Hj. destruct (Inq j Hj) as [->|[->|K]]; [right; lia|right; lia|left; exact K]. }
  assert (Mir : mirror h' n (mk_tail [X; L] true (n + 1) []) (mk_tail [L; X] false n [])) by (constructor; [exact E1|exact E2|reflexivity|reflexivity|reflexivity]).
  split; [constructor|split; [exact E3|split; [exists (mk_tail [X; L] true (n + 1) []), []; rewrite E1; cbn; tauto|exists (mk_tail [L; X] false n []), []; rewrite E2; cbn; tauto]]].
  - intros j Lj. unfold h', pair_heap. rewrite !hset_ne by lia. apply (s_fresh _ _ _ _ _ _ S). lia.
  - destruct (chain_intro X h' n _ _ Mir) as [C1 C2].
    { cbn [t_vert t_line]. split; [cbn; lia|]. split; [cbn; repeat split; try lia; discriminate|]. split; [cbn; tauto|]. constructor; [exact IX|]. constructor; [exact IL|constructor]. }
    intros i Hi. destruct (Inq i Hi) as [->|[->|K]]; [exact C2|exact C1|].
    apply (chain_frame X h h' i); [apply (s_chain _ _ _ _ _ _ S i K)|apply E3, Dom, K|]. apply E3, Dom. apply Qq. exact K.
  - exact (insert_wfq (pt h) (pt h') (n + 1) n u v Qq Na Nb (not_eq_sym D) Pa Pb Pt).
  - exact (insert_bal (pt h) (pt h') (n + 1) n u v Pa Pb Pt (s_bal _ _ _ _ _ _ S)).
  - intros x y Lx. apply (cell_insert (pt h) (pt h') (n + 1) n u v Qq Na Nb (not_eq_sym D) Pa Pb Pt (W h x y) (W h' x y)) with (hs := HS h x y).
    + unfold W. rewrite E2. cbn [t_vert t_line ck]. unfold pr. replace (X <=? x) with false by lia. reflexivity.
    + unfold W. rewrite E1. cbn [t_vert t_line ck]. unfold pr. replace (X <=? x) with false by lia. reflexivity.
    + intros i Hi. unfold W. rewrite E3 by (apply Dom; exact Hi). reflexivity.
    + unfold HS, hol. rewrite E2. reflexivity.
    + unfold HS, hol. rewrite E1. reflexivity.
    + intros i Hi. unfold HS, hol. rewrite E3 by (apply Dom; exact Hi). apply zsum_ext_in. intros k Hk. apply Cl. apply (s_hole _ _ _ _ _ _ S i); [apply in_or_app; left; exact Hi|exact Hk].
    + apply (s_cell _ _ _ _ _ _ S x y Lx).
  - intros i Hi k Hk. rewrite in_app_iff in Hi.
    assert (Old : In i ((u ++ v) ++ pd) -> (i < n)%nat -> cl X h' (u ++ (n + 1)%nat :: n :: v) k).
    { intros Hio Li. unfold hol in Hk. rewrite (E3 i Li) in Hk. apply Cl. exact (s_hole _ _ _ _ _ _ S i Hio k Hk). }
    destruct Hi as [Hi|Hi].
    + destruct (Inq i Hi) as [->|[->|K]]; [unfold hol in Hk; rewrite E2 in Hk; destruct Hk|unfold hol in Hk; rewrite E1 in Hk; destruct Hk|].
      apply Old; [apply in_or_app; left; exact K|apply Dom; exact K].
    + apply Old; [apply in_or_app; right; exact Hi|]. destruct (Hpd i Hi) as [t Et]. apply (st_lt _ _ _ _ _ _ _ _ S Et).
Qed.
