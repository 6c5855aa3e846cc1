(* The heap of active tails: what pushing, joining, closing and creating chains
   does to the windings of the chains. *)
From Verif Require Import Base Units Scan90Spec Poly90Spec Poly90Model Poly90Proofs Set90Model PolyFormGaps PolyFormModel PolyFormLemmas.
From Coq Require Import Arith.

Lemma hset_eq h i t : hset h i t i = Some t.
Proof. unfold hset. rewrite Nat.eqb_refl. reflexivity. Qed.
Lemma hset_ne h i t j : j <> i -> hset h i t j = h j.
Proof. intros N. unfold hset. apply Nat.eqb_neq in N. rewrite N. reflexivity. Qed.
Lemma hdel_eq h i : hdel h i i = None.
Proof. unfold hdel. rewrite Nat.eqb_refl. reflexivity. Qed.
Lemma hdel_ne h i j : j <> i -> hdel h i j = h j.
Proof. intros N. unfold hdel. apply Nat.eqb_neq in N. rewrite N. reflexivity. Qed.

(* ---------- views of the heap ---------- *)
Definition pt (h : heap) (i : nat) : nat := match h i with Some t => t_other t | None => i end.
Definition W (h : heap) (x y : Z) (i : nat) : Z := match h i with Some t => ck x y (t_vert t) (t_line t) | None => 0 end.
Definition hol (h : heap) (i : nat) : list nat := match h i with Some t => t_holes t | None => [] end.
Definition RW (h : heap) (x y : Z) (k : nat) : Z := match h k with Some t => cyc x y true (t_line t) | None => 0 end.
Definition HS (h : heap) (x y : Z) (i : nat) : Z := zsum (RW h x y) (hol h i).

Definition line_ok (X : Z) (v : bool) (l : list Z) : Prop :=
  (2 <= length l)%nat /\ xle X v l /\ prop2 l /\ Forall is_int l.
Record mirror (h : heap) (i : nat) (t o : tail) : Prop := {
  mi_this : h i = Some t;
  mi_other : h (t_other t) = Some o;
  mi_back : t_other o = i;
  mi_line : t_line o = rev (t_line t);
  mi_vert : t_vert o = negb (vat (t_vert t) (t_line t)) }.
Definition chain_ok (X : Z) (h : heap) (i : nat) : Prop :=
  exists t o, mirror h i t o /\ line_ok X (t_vert t) (t_line t).
Definition ring_line (X : Z) (l : list Z) : Prop := Nat.Even (length l) /\ cprop l /\ xle X true l /\ Forall is_int l.
Definition ring_fig (X : Z) (h : heap) (k : nat) : Prop :=
  exists t o, mirror h k t o /\ t_vert t = true /\ ring_line X (t_line t).
Definition cl (X : Z) (h : heap) (q : list nat) (k : nat) : Prop :=
  ~ In k q /\ ~ In (pt h k) q /\ ring_fig X h k /\ forall x y, RW h x y k = 0 \/ RW h x y k = 1.

Record st (X : Z) (h : heap) (n : nat) (q pd : list nat) (C : Z -> Z -> Z) : Prop := {
  s_fresh : forall j, (n <= j)%nat -> h j = None;
  s_chain : forall i, In i q -> chain_ok X h i;
  s_wfq : wfq (pt h) q;
  s_bal : bal (pt h) q;
  s_cell : forall x y, x < X -> cell (pt h) (W h x y) (HS h x y) q (C x y);
  s_hole : forall i, In i (q ++ pd) -> forall k, In k (hol h i) -> cl X h q k }.

Lemma st_lt X h n q pd C i t : st X h n q pd C -> h i = Some t -> (i < n)%nat.
Proof. intros S E. destruct (Nat.lt_ge_cases i n) as [L|L]; [exact L|]. rewrite (s_fresh _ _ _ _ _ _ S i L) in E. discriminate. Qed.

(* ---------- frames ---------- *)
Definition same_fig (h h' : heap) (j : nat) : Prop :=
  forall t, h j = Some t -> exists hs, h' j = Some (mk_tail (t_line t) (t_vert t) (t_other t) hs).
Lemma same_eq h h' j : h' j = h j -> same_fig h h' j.
Proof. intros E t H. exists (t_holes t). rewrite E, H. destruct t; reflexivity. Qed.
Lemma ring_frame X h h' k : ring_fig X h k -> same_fig h h' k -> same_fig h h' (pt h k) ->
  ring_fig X h' k /\ pt h' k = pt h k /\ forall x y, RW h' x y k = RW h x y k.
Proof.
  intros [t [o [[M1 M2 M3 M4 M5] [V R]]]] F1 F2. unfold pt in F2. rewrite M1 in F2.
  destruct (F1 t M1) as [hs1 E1]. destruct (F2 o M2) as [hs2 E2].
  split; [|split; [unfold pt; rewrite E1, M1; reflexivity|intros x y; unfold RW; rewrite E1, M1; reflexivity]].
  exists (mk_tail (t_line t) (t_vert t) (t_other t) hs1), (mk_tail (t_line o) (t_vert o) (t_other o) hs2).
  split; [|split; [exact V|exact R]]. constructor; cbn [t_line t_vert t_other t_holes]; assumption.
Qed.
Lemma ring_dom X h k : ring_fig X h k -> (exists t, h k = Some t) /\ (exists t, h (pt h k) = Some t).
Proof. intros [t [o [[M1 M2 M3 M4 M5] _]]]. unfold pt. rewrite M1. split; eauto. Qed.
Lemma cl_frame X h h' n q q' k : cl X h q k -> (forall j, (n <= j)%nat -> h j = None) ->
  (forall j, ~ In j q -> (j < n)%nat -> same_fig h h' j) -> (forall j, In j q' -> In j q \/ (n <= j)%nat) ->
  cl X h' q' k /\ forall x y, RW h' x y k = RW h x y k.
Proof.
  intros [N1 [N2 [R U]]] Fr F Q. destruct (ring_dom X h k R) as [[t1 D1] [t2 D2]].
  assert (L : forall j t, h j = Some t -> (j < n)%nat).
  { intros j t E. destruct (Nat.lt_ge_cases j n) as [L|L]; [exact L|]. rewrite (Fr j L) in E. discriminate. }
  pose proof (L _ _ D1) as L1. pose proof (L _ _ D2) as L2.
  destruct (ring_frame X h h' k R (F k N1 L1) (F _ N2 L2)) as [A [B D]]. split; [|exact D].
  split; [intros K; destruct (Q k K); [tauto|lia]|]. split; [|split; [exact A|intros x y; rewrite D; apply U]]. rewrite B. intros K. destruct (Q _ K); [tauto|lia].
Qed.
Lemma ring_mono X X' h k : X <= X' -> ring_fig X h k -> ring_fig X' h k.
Proof.
  intros L [t [o [M [V [R1 [R2 [R3 R4]]]]]]]. exists t, o. split; [exact M|]. split; [exact V|]. split; [exact R1|]. split; [exact R2|].
  split; [apply (xle_mono X X' _ L); exact R3|exact R4].
Qed.
Lemma ring_right X h k x y : ring_fig X h k -> X <= x -> RW h x y k = 0.
Proof.
  intros [t [o [[M1 _ _ _ _] [V [R1 [R2 [R3 R4]]]]]]] L. unfold RW. rewrite M1. apply (cyc_right X); assumption.
Qed.

(* ---------- chains ---------- *)
Lemma mirror_sym h i t o : mirror h i t o -> mirror h (t_other t) o t.
Proof.
  intros [M1 M2 M3 M4 M5]. constructor.
  - exact M2.
  - rewrite M3. exact M1.
  - reflexivity.
  - rewrite M4, rev_involutive. reflexivity.
  - rewrite M4, M5, vat_rev, vat_negb, vat_vat, negb_involutive. reflexivity.
Qed.
Lemma mirror_W h i t o x y : mirror h i t o -> W h x y (t_other t) = - W h x y i.
Proof. intros [M1 M2 M3 M4 M5]. unfold W. rewrite M1, M2, M4, M5. apply ck_rev. Qed.
Lemma line_rev X v l : line_ok X v l -> line_ok X (negb (vat v l)) (rev l).
Proof.
  intros [A [B [C D]]]. split; [rewrite rev_length; exact A|]. split; [apply xle_rev; exact B|]. split; [apply prop2_rev; exact C|apply Forall_rev; exact D].
Qed.
Lemma chain_intro X h i t o : mirror h i t o -> line_ok X (t_vert t) (t_line t) -> chain_ok X h i /\ chain_ok X h (t_other t).
Proof.
  intros M L. split; [exists t, o; split; assumption|]. exists o, t. split; [exact (mirror_sym _ _ _ _ M)|].
  rewrite (mi_vert _ _ _ _ M), (mi_line _ _ _ _ M). apply line_rev. exact L.
Qed.
Lemma chain_frame X h h' i : chain_ok X h i -> h' i = h i -> h' (pt h i) = h (pt h i) -> chain_ok X h' i.
Proof.
  intros [t [o [[M1 M2 M3 M4 M5] L]]] E1 E2. unfold pt in E2. rewrite M1 in E2. exists t, o. split; [|exact L].
  constructor; [rewrite E1; exact M1|rewrite E2; exact M2|exact M3|exact M4|exact M5].
Qed.

(* changes of chains that keep the windings to the left of the scan line *)
Lemma st_change X h h' n q pd C : st X h n q pd C ->
  (forall j, ~ In j q -> h' j = h j) -> (forall j, In j q -> chain_ok X h' j) ->
  (forall j, In j q -> pt h' j = pt h j /\ hol h' j = hol h j /\ forall x y, x < X -> W h' x y j = W h x y j) ->
  st X h' n q pd C.
Proof.
  intros S F Ch V. pose proof (s_fresh _ _ _ _ _ _ S) as Fr.
  assert (Cl : forall k, cl X h q k -> cl X h' q k /\ forall x y, RW h' x y k = RW h x y k).
  { intros k Hk. apply (cl_frame X h h' n q q k Hk Fr); [intros j Hj _; apply same_eq, F, Hj|tauto]. }
  assert (Dom : forall j, In j q -> (j < n)%nat).
  { intros j Hj. destruct (s_chain _ _ _ _ _ _ S j Hj) as [t [o [M _]]]. exact (st_lt _ _ _ _ _ _ _ _ S (mi_this _ _ _ _ M)). }
  assert (Hol : forall j, hol h' j = hol h j).
  { intros j. destruct (in_dec Nat.eq_dec j q) as [I|I]; [apply V; exact I|unfold hol; rewrite (F j I); reflexivity]. }
  constructor.
  - intros j L. rewrite F; [apply Fr; exact L|]. intros K. specialize (Dom j K). lia.
  - exact Ch.
  - destruct (s_wfq _ _ _ _ _ _ S) as [N Q]. split; [exact N|]. intros i Hi. destruct (Q i Hi) as [A [B D]]. destruct (V i Hi) as [-> _].
    destruct (V _ A) as [-> _]. tauto.
  - apply (bal_ext (pt h)); [apply (s_bal _ _ _ _ _ _ S)|]. intros i Hi. apply V. exact Hi.
  - intros x y L. apply (cell_ext (pt h) (pt h') (W h x y) (W h' x y) (HS h x y) (HS h' x y)); [|apply (s_cell _ _ _ _ _ _ S); exact L].
    intros i Hi. destruct (V i Hi) as [V1 [V2 V3]]. split; [exact V1|]. split; [apply V3; exact L|]. unfold HS. rewrite V2. apply zsum_ext_in.
    intros k Hk. apply Cl. apply (s_hole _ _ _ _ _ _ S i); [apply in_or_app; left; exact Hi|exact Hk].
  - intros i Hi k Hk. rewrite Hol in Hk. apply Cl. apply (s_hole _ _ _ _ _ _ S i Hi k Hk).
Qed.

(* ---------- pushing a coordinate ---------- *)
Definition pushed (c : Z) (l : list Z) : list Z :=
  match l with a :: b :: m => if c =? b then b :: m else c :: a :: b :: m | _ => l end.
Lemma push_heap h i t o c a b l : mirror h i t o -> i <> t_other t -> t_line t = a :: b :: l ->
  exists h', push_coord h i c = Some h' /\
    h' i = Some (mk_tail (pushed c (t_line t)) (negb (t_vert t)) (t_other t) (t_holes t)) /\
    h' (t_other t) = Some (mk_tail (rev (pushed c (t_line t))) (t_vert o) i (t_holes o)) /\
    forall j, j <> i -> j <> t_other t -> h' j = h j.
Proof.
  intros [M1 M2 M3 M4 M5] D E. unfold push_coord. rewrite M1. cbn [bind]. rewrite M2. cbn [bind]. rewrite E. unfold pushed.
  assert (G : forall l1 l2 j, hset (hset h (t_other t) (mk_tail l2 (t_vert o) (t_other o) (t_holes o))) i (mk_tail l1 (negb (t_vert t)) (t_other t) (t_holes t)) j =
    if (j =? i)%nat then Some (mk_tail l1 (negb (t_vert t)) (t_other t) (t_holes t)) else
    if (j =? t_other t)%nat then Some (mk_tail l2 (t_vert o) (t_other o) (t_holes o)) else h j) by reflexivity.
  destruct (c =? b) eqn:Ec; eexists; (split; [reflexivity|]); rewrite !G, ?Nat.eqb_refl.
  - split; [reflexivity|]. split.
    + replace (t_other t =? i)%nat with false by (symmetry; apply Nat.eqb_neq; congruence). rewrite M3, M4, E. unfold drop_last. cbn [rev].
      rewrite removelast_last. reflexivity.
    + intros j J1 J2. rewrite G. apply Nat.eqb_neq in J1, J2. rewrite J1, J2. reflexivity.
  - split; [reflexivity|]. split.
    + replace (t_other t =? i)%nat with false by (symmetry; apply Nat.eqb_neq; congruence). rewrite M3, M4, E. reflexivity.
    + intros j J1 J2. rewrite G. apply Nat.eqb_neq in J1, J2. rewrite J1, J2. reflexivity.
Qed.
Lemma st_push X h n q pd C i t c a b l : st X h n q pd C -> In i q -> h i = Some t -> t_line t = a :: b :: l ->
  (if t_vert t then a = X else c = X) -> is_int c -> (c = b -> l <> []) ->
  exists h' o, push_coord h i c = Some h' /\ st X h' n q pd C /\ h (pt h i) = Some o /\
    h' i = Some (mk_tail (pushed c (t_line t)) (negb (t_vert t)) (t_other t) (t_holes t)) /\
    h' (pt h i) = Some (mk_tail (rev (pushed c (t_line t))) (t_vert o) i (t_holes o)) /\
    forall j, j <> i -> j <> pt h i -> h' j = h j.
Proof.
  intros S Hi Ht El Hx Ic Nl. destruct (s_chain _ _ _ _ _ _ S i Hi) as [t' [o [M L]]].
  assert (t' = t) by (pose proof (mi_this _ _ _ _ M); congruence). subst t'.
  pose proof (s_wfq _ _ _ _ _ _ S) as [N Q]. destruct (Q i Hi) as [Q1 [Q2 Q3]].
  assert (Ep : pt h i = t_other t) by (unfold pt; rewrite Ht; reflexivity). rewrite Ep in *.
  destruct (push_heap h i t o c a b l M ltac:(congruence) El) as [h' [P1 [P2 [P3 P4]]]].
  exists h', o. split; [exact P1|].
  set (t1 := mk_tail (pushed c (t_line t)) (negb (t_vert t)) (t_other t) (t_holes t)) in *.
  set (o1 := mk_tail (rev (pushed c (t_line t))) (t_vert o) i (t_holes o)) in *.
  assert (Vat : vat (negb (t_vert t)) (pushed c (t_line t)) = vat (t_vert t) (t_line t)).
  { rewrite El. unfold pushed. destruct (c =? b); [rewrite (vat_cons (t_vert t) a); reflexivity|].
    rewrite (vat_cons _ c), negb_involutive. reflexivity. }
  assert (M' : mirror h' i t1 o1).
  { constructor; unfold t1, o1; cbn [t_line t_vert t_other t_holes]; [exact P2|exact P3|reflexivity|reflexivity|].
    rewrite (mi_vert _ _ _ _ M), Vat. reflexivity. }
  assert (L' : line_ok X (t_vert t1) (t_line t1)).
  { unfold t1. cbn [t_vert t_line]. destruct L as [L1 [L2 [L3 L4]]]. rewrite El in L1, L2, L3, L4 |- *. unfold pushed.
    destruct (Z.eqb_spec c b) as [->|Nb].
    - split; [destruct l; [exfalso; apply Nl; reflexivity|cbn [length]; lia]|]. split; [cbn [xle] in L2 |- *; tauto|].
      split; [exact (prop2_tl _ _ L3)|]. inversion L4; assumption.
    - split; [cbn [length]; lia|]. split; [|split; [rewrite prop2_cons3; split; [exact Nb|exact L3]|constructor; assumption]].
      cbn [xle] in L2 |- *. rewrite negb_involutive. split; [|exact L2]. intros K. destruct (t_vert t); [discriminate K|lia]. }
  assert (Wi : forall x y, x < X -> W h' x y i = W h x y i).
  { intros x y Lx. unfold W. rewrite P2, Ht. unfold t1. cbn [t_vert t_line]. rewrite El. unfold pushed. destruct (Z.eqb_spec c b) as [->|Nb].
    - rewrite (ck_cons x y (t_vert t) a b). unfold pr. destruct (t_vert t).
      + subst a. replace (X <=? x) with false by lia. cbn [andb b2z]. lia.
      + subst b. replace (X <=? x) with false by lia. cbn [andb b2z]. lia.
    - rewrite (ck_cons x y (negb (t_vert t)) c a), negb_involutive. unfold pr. destruct (t_vert t); cbn [negb].
      + subst a. replace (X <=? x) with false by lia. cbn [andb b2z]. lia.
      + subst c. replace (X <=? x) with false by lia. cbn [andb b2z]. lia. }
  split; [|split; [exact (mi_other _ _ _ _ M)|split; [exact P2|split; [exact P3|exact P4]]]].
  apply (st_change X h h' n q pd C S).
  - intros j Hj. apply P4; intros ->; tauto.
  - intros j Hj. destruct (chain_intro X h' i t1 o1 M' L') as [K1 K2]. destruct (Nat.eq_dec j i) as [->|D1]; [exact K1|].
    destruct (Nat.eq_dec j (t_other t)) as [->|D2]; [exact K2|]. destruct (Q j Hj) as [R1 [R2 R3]].
    apply (chain_frame X h h' j); [apply (s_chain _ _ _ _ _ _ S j Hj)|apply P4; assumption|]. apply P4; intros K.
    + apply D2. rewrite <- Ep, <- K, R3. reflexivity.
    + apply D1. rewrite <- Ep in K. rewrite <- R3, K, Ep. exact Q3.
  - intros j Hj. destruct (Nat.eq_dec j i) as [->|D1].
    + split; [unfold pt; rewrite P2, Ht; reflexivity|]. split; [unfold hol; rewrite P2, Ht; reflexivity|exact Wi].
    + destruct (Nat.eq_dec j (t_other t)) as [->|D2].
      * split; [unfold pt; rewrite P3, (mi_other _ _ _ _ M); unfold o1; cbn [t_other]; rewrite (mi_back _ _ _ _ M); reflexivity|].
        split; [unfold hol; rewrite P3, (mi_other _ _ _ _ M); reflexivity|]. intros x y Lx.
        pose proof (mirror_W h' i t1 o1 x y M') as E1. unfold t1 in E1. cbn [t_other] in E1. rewrite E1, (mirror_W h i t o x y M), (Wi x y Lx). reflexivity.
      * unfold pt, hol, W. rewrite (P4 j D1 D2). split; [reflexivity|]. split; [reflexivity|]. reflexivity.
Qed.

(* the first two coordinates of a chain *)
Definition hv (h : heap) (i : nat) (v : bool) (k x : Z) : Prop :=
  exists t l, h i = Some t /\ t_vert t = v /\ t_line t = k :: x :: l.
Lemma hv_eq h h' i v k x : h' i = h i -> hv h i v k x -> hv h' i v k x.
Proof. intros E [t [l [H1 [H2 H3]]]]. exists t, l. rewrite E. tauto. Qed.
Lemma hv_fun h i v k x v' k' x' : hv h i v k x -> hv h i v' k' x' -> v = v' /\ k = k' /\ x = x'.
Proof. intros [t [l [H1 [H2 H3]]]] [t' [l' [K1 [K2 K3]]]]. rewrite H1 in K1. injection K1 as <-. rewrite H3 in K3. injection K3 as <- <- <-. split; [congruence|tauto]. Qed.

Lemma rev_pushed_hd c l k x m : (2 <= length (pushed c l))%nat -> rev l = k :: x :: m -> exists m', rev (pushed c l) = k :: x :: m'.
Proof.
  destruct l as [|a [|b l]]; cbn [pushed]; [intros _ E; exists m; exact E|intros _ E; exists m; exact E|].
  destruct (c =? b).
  - cbn [rev length]. intros L E. destruct (rev l ++ [b]) as [|u [|w z]] eqn:Ez.
    + apply (f_equal (@length Z)) in Ez. rewrite app_length, rev_length in Ez. cbn [length] in Ez. lia.
    + apply (f_equal (@length Z)) in Ez. rewrite app_length, rev_length in Ez. cbn [length] in Ez. lia.
    + cbn [app] in E. injection E as -> -> _. exists z. reflexivity.
  - intros _ E. change (rev (c :: a :: b :: l)) with (rev (a :: b :: l) ++ [c]). rewrite E. exists (m ++ [c]). reflexivity.
Qed.
(* pushing, in terms of the first two coordinates *)
Lemma st_push_hv X h n q pd C i v c a b : st X h n q pd C -> In i q -> hv h i v a b ->
  (if v then a = X else c = X) -> is_int c -> c <> b ->
  exists h', push_coord h i c = Some h' /\ st X h' n q pd C /\ hv h' i (negb v) c a /\
    (forall j, ~ In j q -> h' j = h j) /\ (forall j, pt h' j = pt h j) /\ (forall j, hol h' j = hol h j) /\
    (forall j w k x, In j q -> j <> i -> hv h j w k x -> hv h' j w k x).
Proof.
  intros S Hi [t [l [Ht [Hv El]]]] Hx Ic Nc. rewrite <- Hv in Hx.
  destruct (st_push X h n q pd C i t c a b l S Hi Ht El Hx Ic) as [h' [o [P1 [P2 [P3 [P4 [P5 P6]]]]]]]; [congruence|].
  assert (Epsh : pushed c (t_line t) = c :: a :: b :: l).
  { rewrite El. unfold pushed. destruct (Z.eqb_spec c b); [congruence|reflexivity]. }
  exists h'. split; [exact P1|]. split; [exact P2|]. rewrite Epsh in P4, P5.
  destruct (s_chain _ _ _ _ _ _ S i Hi) as [t' [o' [M L]]].
  assert (t' = t) by (pose proof (mi_this _ _ _ _ M); congruence). subst t'.
  assert (Ep : pt h i = t_other t) by (unfold pt; rewrite Ht; reflexivity). rewrite Ep in *.
  assert (o' = o) by (pose proof (mi_other _ _ _ _ M); congruence). subst o'.
  split; [exists (mk_tail (c :: a :: b :: l) (negb (t_vert t)) (t_other t) (t_holes t)), (b :: l); split; [exact P4|]; cbn; rewrite Hv; tauto|].
  pose proof (s_wfq _ _ _ _ _ _ S) as [N Q]. destruct (Q i Hi) as [Q1 [Q2 Q3]]. rewrite Ep in Q1, Q2.
  split; [intros j Hj; apply P6; intros ->; tauto|]. split.
  { intros j. destruct (Nat.eq_dec j i) as [->|D1]; [unfold pt; rewrite P4, Ht; reflexivity|].
    destruct (Nat.eq_dec j (t_other t)) as [->|D2]; [unfold pt; rewrite P5, P3; cbn [t_other]; rewrite (mi_back _ _ _ _ M); reflexivity|].
    unfold pt. rewrite (P6 j D1 D2). reflexivity. }
  split.
  { intros j. destruct (Nat.eq_dec j i) as [->|D1]; [unfold hol; rewrite P4, Ht; reflexivity|].
    destruct (Nat.eq_dec j (t_other t)) as [->|D2]; [unfold hol; rewrite P5, P3; reflexivity|].
    unfold hol. rewrite (P6 j D1 D2). reflexivity. }
  intros j w k x Hj Dj [tj [lj [H1 [H2 H3]]]]. destruct (Nat.eq_dec j (t_other t)) as [->|D2].
  - rewrite P3 in H1. injection H1 as <-. rewrite (mi_line _ _ _ _ M) in H3.
    destruct (rev_pushed_hd c (t_line t) k x lj) as [m' Em]; [rewrite Epsh; cbn [length]; lia|exact H3|]. rewrite Epsh in Em.
    eexists. exists m'. split; [exact P5|]. cbn [t_vert t_line]. tauto.
  - exists tj, lj. rewrite (P6 j Dj D2). tauto.
Qed.

(* ---------- joining two chains ---------- *)
Ltac hh := repeat first [rewrite hset_eq | rewrite hdel_eq | rewrite hset_ne by congruence | rewrite hdel_ne by congruence].
Lemma copy_holes_eq h i j ti tj : h i = Some ti -> h j = Some tj -> i <> j ->
  exists h', copy_holes h i j = Some h' /\ h' i = Some (with_holes ti (t_holes ti ++ t_holes tj)) /\ h' j = Some (with_holes tj []) /\
    forall k, k <> i -> k <> j -> h' k = h k.
Proof.
  intros Hi Hj D. unfold copy_holes. rewrite Hi. cbn [bind]. rewrite Hj. cbn [bind]. eexists. split; [reflexivity|].
  split; [hh; reflexivity|]. split; [hh; reflexivity|]. intros k K1 K2. hh. reflexivity.
Qed.
Lemma join_heap h a b ta tb ta' tb' solid out : h a = Some ta -> h b = Some tb -> h (t_other ta) = Some ta' -> h (t_other tb) = Some tb' ->
  a <> b -> t_other ta <> a -> t_other ta <> b -> t_other tb <> a -> t_other tb <> b -> t_other ta <> t_other tb ->
  exists h', join_chains h a b solid out = Some (None, h', out) /\ h' a = None /\ h' b = None /\
    h' (t_other ta) = Some (mk_tail (t_line ta' ++ t_line tb) (t_vert ta') (t_other tb) (t_holes ta' ++ t_holes ta ++ t_holes tb)) /\
    h' (t_other tb) = Some (mk_tail (t_line tb' ++ t_line ta) (t_vert tb') (t_other ta) (t_holes tb')) /\
    forall j, j <> a -> j <> b -> j <> t_other ta -> j <> t_other tb -> h' j = h j.
Proof.
  intros Ha Hb Ha' Hb' D1 D2 D3 D4 D5 D6. unfold join_chains. rewrite Ha. cbn [bind].
  replace (t_other ta =? b)%nat with false by (symmetry; apply Nat.eqb_neq; exact D3). rewrite Hb. cbn [bind]. rewrite Ha'. cbn [bind]. rewrite Hb'. cbn [bind].
  match goal with |- context [copy_holes ?hx (t_other ta) a] => set (h2 := hx) end.
  destruct (copy_holes_eq h2 (t_other ta) a (mk_tail (t_line ta' ++ t_line tb) (t_vert ta') (t_other tb) (t_holes ta')) ta) as [h3 [E3 [A1 [A2 A3]]]];
    [unfold h2; hh; reflexivity|unfold h2; hh; exact Ha|exact D2|]. rewrite E3. cbn [bind].
  destruct (copy_holes_eq h3 (t_other ta) b _ tb A1) as [h4 [E4 [B1 [B2 B3]]]]; [rewrite A3 by congruence; unfold h2; hh; exact Hb|exact D3|]. rewrite E4. cbn [bind].
  eexists. split; [reflexivity|]. split; [hh; reflexivity|]. split; [hh; reflexivity|].
  split; [hh; rewrite B1; unfold with_holes; cbn [t_line t_vert t_other t_holes]; rewrite app_assoc; reflexivity|].
  split; [hh; rewrite B3, A3 by congruence; unfold h2; hh; reflexivity|]. intros j J1 J2 J3 J4. hh. rewrite B3, A3 by congruence. unfold h2. hh. reflexivity.
Qed.

Lemma join_line X va vb a1 a2 la b1 b2 lb : line_ok X va (a1 :: a2 :: la) -> line_ok X vb (b1 :: b2 :: lb) -> vb = negb va ->
  (if va then a1 = X else b1 = X) -> a2 <> b1 -> a1 <> b2 ->
  let va' := negb (vat va (a1 :: a2 :: la)) in
  line_ok X va' (rev (a1 :: a2 :: la) ++ b1 :: b2 :: lb) /\
  vat va' (rev (a1 :: a2 :: la) ++ b1 :: b2 :: lb) = vat vb (b1 :: b2 :: lb) /\
  forall x y, x < X -> ck x y va' (rev (a1 :: a2 :: la) ++ b1 :: b2 :: lb) = ck x y va' (rev (a1 :: a2 :: la)) + ck x y vb (b1 :: b2 :: lb).
Proof.
  intros La Lb Evb HX N1 N2 va'. destruct (line_rev _ _ _ La) as [A1 [A2 [A3 A4]]]. destruct Lb as [B1 [B2 [B3 B4]]].
  assert (V : vat va' (rev (a1 :: a2 :: la)) = vb).
  { unfold va'. rewrite vat_negb, vat_rev, vat_vat. symmetry. exact Evb. }
  split; [|split].
  - split; [rewrite app_length; lia|]. split; [apply xle_app; split; [exact A2|rewrite V; exact B2]|]. split; [|apply Forall_app; split; assumption].
    cbn [rev] in *. repeat rewrite <- app_assoc in *. cbn [app] in *. apply prop2_join; assumption.
  - rewrite vat_app, V. reflexivity.
  - intros x y Lx. change (rev (a1 :: a2 :: la)) with (rev (a2 :: la) ++ [a1]). rewrite <- app_assoc. cbn [app]. rewrite ck_split. f_equal.
    replace (vat va' (rev (a2 :: la))) with va.
    2:{ unfold va'. rewrite vat_negb, vat_rev, (vat_cons va a1), vat_vat, negb_involutive. reflexivity. }
    rewrite ck_cons, <- Evb. unfold pr. destruct va; subst; replace (X <=? x) with false by lia; cbn [andb b2z]; lia.
Qed.

Lemma st_join X h n u v a b C p r solid out vp p1 p2 r1 r2 :
  st X h n (u ++ a :: b :: v) [] C -> pt h a <> b ->
  ((p = a /\ r = b) \/ (p = b /\ r = a /\ forall i, In i (u ++ a :: b :: v) -> hol h i = [])) ->
  hv h p vp p1 p2 -> hv h r (negb vp) r1 r2 -> p2 <> r1 -> p1 <> r2 -> (if vp then p1 = X else r1 = X) ->
  exists h', join_chains h p r solid out = Some (None, h', out) /\ st X h' n (u ++ v) [] C /\
    (forall j, ~ In j (u ++ a :: b :: v) -> h' j = h j) /\
    (forall j w k x, In j (u ++ v) -> hv h j w k x -> hv h' j w k x) /\
    ((forall i, In i (u ++ a :: b :: v) -> hol h i = []) -> forall i, In i (u ++ v) -> hol h' i = []).
Proof.
  intros S Nab Hpr Vp Vr N1 N2 HX.
  pose proof (s_wfq _ _ _ _ _ _ S) as Qq. pose proof (s_bal _ _ _ _ _ _ S) as Bq. pose proof Qq as [Nq Q].
  assert (Ha : In a (u ++ a :: b :: v)) by inl. assert (Hb : In b (u ++ a :: b :: v)) by inl.
  assert (Hp : In p (u ++ a :: b :: v)) by (destruct Hpr as [[-> _]|[-> _]]; assumption).
  assert (Hr : In r (u ++ a :: b :: v)) by (destruct Hpr as [[_ ->]|[_ [-> _]]]; assumption).
  assert (Dba : pt h b <> a) by (intros K; apply Nab; rewrite <- K; apply (Q b Hb)).
  assert (Npr : pt h p <> r) by (destruct Hpr as [[-> ->]|[-> [-> _]]]; assumption).
  assert (Nrp : pt h r <> p) by (destruct Hpr as [[-> ->]|[-> [-> _]]]; assumption).
  assert (Dab : a <> b).
  { intros K. apply cn_nodup with (i := a) in Nq. rewrite cn_app in Nq. cbn [cn] in Nq. rewrite <- K, Nat.eqb_refl in Nq. cbn [b2z] in Nq.
    pose proof (cn_nonneg a u). pose proof (cn_nonneg a v). lia. }
  assert (Dpr : p <> r) by (destruct Hpr as [[-> ->]|[-> [-> _]]]; congruence).
  destruct (Q p Hp) as [Qp1 [Qp2 Qp3]]. destruct (Q r Hr) as [Qr1 [Qr2 Qr3]].
  assert (Dpp : pt h p <> pt h r) by (intros K; apply Dpr; rewrite <- Qp3, <- Qr3, K; reflexivity).
  destruct (s_chain _ _ _ _ _ _ S p Hp) as [tp [op [Mp Lp]]]. destruct (s_chain _ _ _ _ _ _ S r Hr) as [tr [or [Mr Lr]]].
  destruct Vp as [t1 [lp [E1 [Ev1 El1]]]]. rewrite (mi_this _ _ _ _ Mp) in E1. injection E1 as <-.
  destruct Vr as [t2 [lr [E2 [Ev2 El2]]]]. rewrite (mi_this _ _ _ _ Mr) in E2. injection E2 as <-.
  assert (Pp : pt h p = t_other tp) by (unfold pt; rewrite (mi_this _ _ _ _ Mp); reflexivity).
  assert (Pr : pt h r = t_other tr) by (unfold pt; rewrite (mi_this _ _ _ _ Mr); reflexivity).
  destruct (join_heap h p r tp tr op or solid out) as [h' [J0 [J1 [J2 [J3 [J4 J5]]]]]];
    [exact (mi_this _ _ _ _ Mp)|exact (mi_this _ _ _ _ Mr)|exact (mi_other _ _ _ _ Mp)|exact (mi_other _ _ _ _ Mr)|exact Dpr|congruence|congruence|congruence|congruence|congruence|].
  exists h'. split; [exact J0|]. rewrite <- Pp, <- Pr in *.
  rewrite El1, Ev1 in Lp. rewrite El2, Ev2 in Lr.
  destruct (join_line X vp (negb vp) p1 p2 lp r1 r2 lr Lp Lr eq_refl HX N1 N2) as [K1 [K2 K3]].
  set (tp' := mk_tail (t_line op ++ t_line tr) (t_vert op) (pt h r) (t_holes op ++ t_holes tp ++ t_holes tr)) in *.
  set (tr' := mk_tail (t_line or ++ t_line tp) (t_vert or) (pt h p) (t_holes or)) in *.
  assert (M' : mirror h' (pt h p) tp' tr').
  { constructor; unfold tp', tr'; cbn [t_line t_vert t_other t_holes]; [exact J3|exact J4|reflexivity| |].
    - rewrite (mi_line _ _ _ _ Mp), (mi_line _ _ _ _ Mr), rev_app_distr, rev_involutive. reflexivity.
    - rewrite (mi_vert _ _ _ _ Mr), (mi_vert _ _ _ _ Mp), (mi_line _ _ _ _ Mp), El1, El2, Ev1, Ev2, K2. reflexivity. }
  assert (L' : line_ok X (t_vert tp') (t_line tp')).
  { unfold tp'. cbn [t_vert t_line]. rewrite (mi_vert _ _ _ _ Mp), (mi_line _ _ _ _ Mp), El1, El2, Ev1. exact K1. }
  assert (Wp : forall x y, x < X -> W h' x y (pt h p) = W h x y (pt h p) + W h x y r).
  { intros x y Lx. unfold W. rewrite J3. pose proof (mi_other _ _ _ _ Mp) as E. rewrite <- Pp in E. rewrite E, (mi_this _ _ _ _ Mr).
    unfold tp'. cbn [t_vert t_line]. rewrite (mi_vert _ _ _ _ Mp), (mi_line _ _ _ _ Mp), El1, El2, Ev1, Ev2. apply K3. exact Lx. }
  assert (Wr : forall x y, x < X -> W h' x y (pt h r) = W h x y (pt h r) + W h x y p).
  { intros x y Lx. pose proof (mirror_W h' (pt h p) tp' tr' x y M') as E. unfold tp' in E. cbn [t_other] in E.
    rewrite E, (Wp x y Lx). pose proof (mirror_W h p tp op x y Mp) as E1. pose proof (mirror_W h r tr or x y Mr) as E2. rewrite <- Pp in E1. rewrite <- Pr in E2. lia. }
  assert (P1 : pt h' (pt h p) = pt h r) by (unfold pt at 1; rewrite J3; reflexivity).
  assert (P2 : pt h' (pt h r) = pt h p) by (unfold pt at 1; rewrite J4; reflexivity).
  assert (Inpr : forall i, In i (u ++ v) -> i <> p /\ i <> r).
  { intros i Hi. pose proof (cn_in i _ Hi) as Ci. apply cn_nodup with (i := i) in Nq. rewrite cn_app in Ci, Nq. cbn [cn] in Nq.
    assert (i <> a /\ i <> b).
    { split; intros ->; rewrite ?Nat.eqb_refl in Nq; cbn [b2z] in Nq.
      - destruct (a =? b)%nat; cbn [b2z] in Nq; lia.
      - destruct (b =? a)%nat; cbn [b2z] in Nq; lia. }
    destruct Hpr as [[-> ->]|[-> [-> _]]]; tauto. }
  assert (Up : forall i, In i (u ++ v) -> In i (u ++ a :: b :: v)) by (intros i; rewrite !in_app_iff; cbn [In]; tauto).
  assert (Fr : forall j, ~ In j (u ++ a :: b :: v) -> h' j = h j).
  { intros j Hj. apply J5; intros ->; tauto. }
  assert (Oth : forall i, In i (u ++ v) -> i <> pt h p -> i <> pt h r -> h' i = h i).
  { intros i Hi D1 D2. destruct (Inpr i Hi). apply J5; assumption. }
  pose proof (s_fresh _ _ _ _ _ _ S) as Fresh.
  assert (Cl : forall k, cl X h (u ++ a :: b :: v) k -> cl X h' (u ++ v) k /\ forall x y, RW h' x y k = RW h x y k).
  { intros k Hk. apply (cl_frame X h h' n (u ++ a :: b :: v) (u ++ v) k Hk Fresh); [intros j Hj _; apply same_eq, Fr, Hj|intros j Hj; left; apply Up; exact Hj]. }
  assert (HolP : hol h' (pt h p) = hol h (pt h p) ++ hol h p ++ hol h r).
  { unfold hol. rewrite J3, (mi_this _ _ _ _ Mp), (mi_this _ _ _ _ Mr). pose proof (mi_other _ _ _ _ Mp) as E. rewrite <- Pp in E. rewrite E. reflexivity. }
  assert (HolO : forall i, In i (u ++ v) -> i <> pt h p -> hol h' i = hol h i).
  { intros i Hi D1. destruct (Nat.eq_dec i (pt h r)) as [->|D2].
    - unfold hol. rewrite J4. pose proof (mi_other _ _ _ _ Mr) as E. rewrite <- Pr in E. rewrite E. reflexivity.
    - unfold hol. rewrite Oth by assumption. reflexivity. }
  assert (Hsub : forall i, In i (u ++ v) -> forall k, In k (hol h' i) -> cl X h (u ++ a :: b :: v) k).
  { intros i Hi k Hk. pose proof (s_hole _ _ _ _ _ _ S) as SH. rewrite app_nil_r in SH. destruct (Nat.eq_dec i (pt h p)) as [->|D1].
    - rewrite HolP, !in_app_iff in Hk. destruct Hk as [Hk|[Hk|Hk]]; [apply (SH (pt h p))|apply (SH p)|apply (SH r)]; assumption.
    - rewrite HolO in Hk by assumption. apply (SH i); [apply Up; exact Hi|exact Hk]. }
  assert (HSo : forall x y i, In i (u ++ v) -> i <> pt h p -> HS h' x y i = HS h x y i).
  { intros x y i Hi D1. unfold HS. rewrite (HolO i Hi D1). apply zsum_ext_in. intros k Hk. apply Cl. apply (Hsub i Hi). rewrite HolO; assumption. }
  assert (Ipu : In (pt h p) (u ++ v)).
  { revert Qp1. rewrite !in_app_iff. cbn [In]. destruct Hpr as [[-> ->]|[-> [-> _]]]; intuition congruence. }
  assert (HSp : forall x y, HS h' x y (pt h p) = HS h x y (pt h p) + HS h x y p + HS h x y r).
  { intros x y. unfold HS at 1. rewrite HolP, !PolyFormGaps.zsum_app. unfold HS.
    assert (E : forall i, In i (u ++ a :: b :: v) -> zsum (RW h' x y) (hol h i) = zsum (RW h x y) (hol h i)).
    { intros i Hi. apply zsum_ext_in. intros k Hk. apply Cl. pose proof (s_hole _ _ _ _ _ _ S) as SH. rewrite app_nil_r in SH. exact (SH i Hi k Hk). }
    rewrite !E by assumption. lia. }
  assert (JJ : (pt h' (pt h a) = pt h b /\ pt h' (pt h b) = pt h a) /\
    (forall i, In i (u ++ v) -> i <> pt h a -> i <> pt h b -> h' i = h i) /\
    (forall x y, x < X -> W h' x y (pt h a) = W h x y (pt h a) + W h x y b /\ W h' x y (pt h b) = W h x y (pt h b) + W h x y a)).
  { destruct Hpr as [[-> ->]|[-> [-> _]]].
    - split; [split; assumption|]. split; [exact Oth|]. intros x y Lx. split; [apply Wp|apply Wr]; exact Lx.
    - split; [split; assumption|]. split; [intros i Hi D1 D2; apply Oth; assumption|]. intros x y Lx. split; [apply Wr|apply Wp]; exact Lx. }
  destruct JJ as [[JJ1 JJ2] [JJ3 JJ4]].
  assert (JP : forall i, In i (u ++ v) -> i <> pt h a -> i <> pt h b -> pt h' i = pt h i).
  { intros i Hi D1 D2. unfold pt. rewrite (JJ3 i Hi D1 D2). reflexivity. }
  split; [constructor|split; [exact Fr|split]].
  - intros j L. rewrite Fr; [apply Fresh; exact L|]. intros K. destruct (s_chain _ _ _ _ _ _ S j K) as [t [o [M _]]].
    pose proof (st_lt _ _ _ _ _ _ _ _ S (mi_this _ _ _ _ M)). lia.
  - destruct (chain_intro X h' (pt h p) tp' tr' M' L') as [C1 C2]. unfold tp' in C2. cbn [t_other] in C2.
    intros i Hi. destruct (Nat.eq_dec i (pt h p)) as [->|D1]; [exact C1|]. destruct (Nat.eq_dec i (pt h r)) as [->|D2]; [exact C2|].
    apply (chain_frame X h h' i); [apply (s_chain _ _ _ _ _ _ S); apply Up; exact Hi|apply Oth; assumption|].
    destruct (Inpr i Hi) as [I1 I2]. destruct (Q i (Up i Hi)) as [R1 [R2 R3]]. apply J5; intros K.
    + apply D1. rewrite <- R3, K. reflexivity.
    + apply D2. rewrite <- R3, K. reflexivity.
    + apply I1. rewrite <- R3, K. exact Qp3.
    + apply I2. rewrite <- R3, K. exact Qr3.
  - apply (join_wfq (pt h) (pt h') a b u v Qq Bq Nab JJ1 JJ2 JP).
  - apply (join_bal (pt h) (pt h') a b u v Qq Bq Nab JJ1 JJ2 JP).
  - intros x y Lx. destruct (JJ4 x y Lx) as [W1 W2].
    assert (W3 : forall i, In i (u ++ v) -> i <> pt h a -> i <> pt h b -> W h' x y i = W h x y i).
    { intros i Hi D1 D2. unfold W. rewrite (JJ3 i Hi D1 D2). reflexivity. }
    assert (HH : HS h' x y (pt h a) = HS h x y (pt h a) + HS h x y a + HS h x y b /\ (forall i, In i (u ++ v) -> i <> pt h a -> HS h' x y i = HS h x y i)).
    { destruct Hpr as [[-> ->]|[-> [-> Nil]]].
      - split; [apply HSp|apply HSo].
      - assert (Z : forall i, In i (u ++ a :: b :: v) -> HS h x y i = 0) by (intros i Hi; unfold HS; rewrite (Nil i Hi); reflexivity).
        assert (Z' : forall i, In i (u ++ v) -> HS h' x y i = 0).
        { intros i Hi. destruct (Nat.eq_dec i (pt h b)) as [->|D]; [rewrite HSp, !Z by assumption; reflexivity|].
          rewrite HSo by assumption. apply Z, Up, Hi. }
        assert (Ia : In (pt h a) (u ++ v)) by (revert Qr1; rewrite !in_app_iff; cbn [In]; intuition congruence).
        split; [rewrite Z' by exact Ia; rewrite !Z by assumption; reflexivity|]. intros i Hi _. rewrite Z' by exact Hi. symmetry. apply Z, Up, Hi. }
    destruct HH as [H1 H2].
    exact (cell_join (pt h) (pt h') (W h x y) (W h' x y) (HS h x y) (HS h' x y) a b u v (C x y) Qq Bq Nab JJ1 JJ2 JP W1 W2 W3 H1 H2 (s_cell _ _ _ _ _ _ S x y Lx)).
  - intros i Hi k Hk. rewrite app_nil_r in Hi. apply Cl. exact (Hsub i Hi k Hk).
  - intros j w k x Hj [tj [lj [H1 [H2 H3]]]]. destruct (Nat.eq_dec j (pt h p)) as [->|D1].
    + pose proof (mi_other _ _ _ _ Mp) as E. rewrite <- Pp in E. rewrite E in H1. injection H1 as <-.
      exists tp', (lj ++ t_line tr). split; [exact J3|]. unfold tp'. cbn [t_vert t_line]. split; [exact H2|]. rewrite H3. reflexivity.
    + destruct (Nat.eq_dec j (pt h r)) as [->|D2].
      * pose proof (mi_other _ _ _ _ Mr) as E. rewrite <- Pr in E. rewrite E in H1. injection H1 as <-.
        exists tr', (lj ++ t_line tp). split; [exact J4|]. unfold tr'. cbn [t_vert t_line]. split; [exact H2|]. rewrite H3. reflexivity.
      * exists tj, lj. rewrite (Oth j Hj D1 D2). tauto.
  - intros Nil i Hi. destruct (Nat.eq_dec i (pt h p)) as [->|D]; [rewrite HolP, !Nil by assumption; reflexivity|]. rewrite HolO by assumption. apply Nil, Up, Hi.
Qed.
