(* The chains on the scan line have the region below and above in turn: all
   their edges are on the boundary of the region, with the region on the same
   side, and so are the edges of the figures that have been closed. *)
From Verif Require Import Base Units Scan90Spec Poly90Spec Poly90Model Poly90Proofs Set90Model PolyFormGaps PolyFormModel PolyFormLemmas PolyFormHeap PolyFormClose PolyFormGood.
From Coq Require Import Arith.

Lemma bal_pair pt q : bal pt q -> forall i, In i q -> exists x m y, bal pt m /\ (q = x ++ i :: m ++ pt i :: y \/ q = x ++ pt i :: m ++ i :: y).
Proof.
  induction 1 as [|i0 m v E B1 IH1 B2 IH2]; intros i Hi; [destruct Hi|]. cbn [In] in Hi. rewrite in_app_iff in Hi. cbn [In] in Hi. destruct Hi as [<-|[Hi|[<-|Hi]]].
  - exists [], m, v. split; [exact B1|]. left. reflexivity.
  - destruct (IH1 i Hi) as [x [m' [y [Bm [->| ->]]]]]; exists (i0 :: x), m', (y ++ pt i0 :: v); (split; [exact Bm|]); [left|right]; cbn [app]; apps; reflexivity.
  - exists [], m, v. split; [exact B1|]. right. rewrite E. reflexivity.
  - destruct (IH2 i Hi) as [x [m' [y [Bm [->| ->]]]]]; exists (i0 :: m ++ pt i0 :: x), m', y; (split; [exact Bm|]); [left|right]; cbn [app]; apps; reflexivity.
Qed.
Lemma bal_parity pt q u i v u' v' : bal pt q -> NoDup q -> q = u ++ i :: v -> q = u' ++ pt i :: v' -> odd_len u' = negb (odd_len u).
Proof.
  intros B N E E'. destruct (bal_pair pt q B i) as [x [m [y [Bm [K|K]]]]]; [rewrite E; apply in_or_app; right; left; reflexivity| |].
  - rewrite E in N. rewrite E in K. destruct (nodup_once i u v _ _ N K) as [-> ->]. rewrite E in E'.
    assert (K' : u' ++ pt i :: v' = (x ++ i :: m) ++ pt i :: y) by (rewrite <- E'; apps; reflexivity). rewrite E' in N.
    destruct (nodup_once _ _ _ _ _ N K') as [-> _]. rewrite odd_len_app, odd_len_cons, (bal_even _ _ Bm). destruct (odd_len x); reflexivity.
  - rewrite E in N. rewrite E in K. replace (x ++ pt i :: m ++ i :: y) with ((x ++ pt i :: m) ++ i :: y) in K by (apps; reflexivity).
    destruct (nodup_once i u v _ _ N K) as [-> ->]. rewrite E in E'.
    assert (K' : u' ++ pt i :: v' = x ++ pt i :: m ++ i :: y) by (rewrite <- E'; apps; reflexivity). rewrite E' in N.
    destruct (nodup_once _ _ _ _ _ N K') as [-> _]. rewrite odd_len_app, odd_len_cons, (bal_even _ _ Bm). destruct (odd_len x); reflexivity.
Qed.

Definition gq (P : Z -> Z -> bool) (h : heap) (q : list nat) : Prop :=
  forall u i v t, q = u ++ i :: v -> h i = Some t -> gline P (odd_len u) (t_vert t) (t_line t).
Definition gr (P : Z -> Z -> bool) (h : heap) (d : bool) (k : nat) : Prop := exists t, h k = Some t /\ gring P d true (t_line t).
Record good (P : Z -> Z -> bool) (h : heap) (q pd out : list nat) : Prop := {
  g_q : gq P h q;
  g_hol : forall i, In i (q ++ pd) \/ In i out -> forall k, In k (hol h i) -> gr P h true k;
  g_out : forall a, In a out -> gr P h false a;
  g_pd : match pd with [] => True | a :: _ => gr P h true a end }.

Lemma gr_same P h h' d k : gr P h d k -> same_fig h h' k -> gr P h' d k.
Proof. intros [t [E G]] F. destruct (F t E) as [hs E']. eexists. split; [exact E'|]. exact G. Qed.
Lemma gq_same P h h' q : gq P h q -> (forall i, In i q -> exists t, h i = Some t) -> (forall i, In i q -> same_fig h h' i) -> gq P h' q.
Proof.
  intros G D F u i v t E Ht. assert (Hi : In i q) by (rewrite E; apply in_or_app; right; left; reflexivity).
  destruct (D i Hi) as [t0 E0]. destruct (F i Hi t0 E0) as [hs E1]. rewrite E1 in Ht. injection Ht as <-. exact (G u i v t0 E E0).
Qed.
Lemma split_del (u v u1 v1 : list nat) a b j : u ++ v = u1 ++ j :: v1 -> exists u2 v2, u ++ a :: b :: v = u2 ++ j :: v2 /\ odd_len u2 = odd_len u1.
Proof.
  intros E. destruct (app_split u v u1 v1 j E) as [[z [-> ->]]|[z [-> ->]]].
  - exists (u ++ a :: b :: z), v1. split; [apps; reflexivity|]. rewrite !odd_len_app, !odd_len_cons, negb_involutive. reflexivity.
  - exists u1, (z ++ a :: b :: v). split; [apps; reflexivity|reflexivity].
Qed.
Lemma gq_del P h u v a b : gq P h (u ++ a :: b :: v) -> gq P h (u ++ v).
Proof. intros G u1 i v1 t E Ht. destruct (split_del u v u1 v1 a b i E) as [u2 [v2 [E2 <-]]]. exact (G u2 i v2 t E2 Ht). Qed.

(* what an operation has to keep of the figures *)
Lemma good_step P X h h' n q q' pd pd' out C : st X h n q pd C -> (forall a, In a out -> shell X h q pd a) -> frame h h' n q pd q' pd' ->
  good P h q pd out -> gq P h' q' ->
  (forall i, In i (q' ++ pd') -> forall k, In k (hol h' i) -> (exists j, In j (q ++ pd) /\ In k (hol h j)) \/ (gr P h true k /\ cl X h q k)) ->
  match pd' with [] => True | a :: _ => gr P h' true a end -> good P h' q' pd' out.
Proof.
  intros S Sh F G Gq Gh Gp. pose proof F as [F1 [F2 _]].
  assert (Kp : forall d k, gr P h d k -> cl X h q k -> gr P h' d k).
  { intros d k Gk [N1 [_ [R _]]]. apply (gr_same P h h' d k Gk). apply F1; [exact N1|]. destruct (ring_dom _ _ _ R) as [[t E] _]. apply (st_lt _ _ _ _ _ _ _ _ S E). }
  constructor; [exact Gq| | |exact Gp].
  - intros i [Hi|Hi] k Hk.
    + destruct (Gh i Hi k Hk) as [[j [Hj Hkj]]|[K1 K2]]; [|apply Kp; assumption]. apply Kp; [apply (g_hol _ _ _ _ _ G j (or_introl Hj) k Hkj)|exact (s_hole _ _ _ _ _ _ S j Hj k Hkj)].
    + destruct (Sh i Hi) as [C1 [N2 [C3 _]]]. assert (Eh : h' i = h i).
      { apply F2; [rewrite in_app_iff; destruct C1 as [N1 _]; tauto|]. destruct C1 as [_ [_ [R _]]]. destruct (ring_dom _ _ _ R) as [[t E] _]. apply (st_lt _ _ _ _ _ _ _ _ S E). }
      unfold hol in Hk. rewrite Eh in Hk. apply Kp; [apply (g_hol _ _ _ _ _ G i (or_intror Hi) k Hk)|apply C3; exact Hk].
  - intros a Ha. apply Kp; [apply (g_out _ _ _ _ _ G a Ha)|exact (proj1 (Sh a Ha))].
Qed.

Lemma head_int X h n q pd C i v a b : st X h n q pd C -> In i q -> hv h i v a b -> a < BIG /\ b < BIG.
Proof.
  intros S Hi [t [l [E [Ev El]]]]. destruct (s_chain _ _ _ _ _ _ S i Hi) as [t' [o [M [_ [_ [_ L]]]]]]. rewrite (mi_this _ _ _ _ M) in E. injection E as ->.
  rewrite El in L. inversion L as [|? ? I1 L1]; subst. inversion L1 as [|? ? I2 _]; subst. unfold is_int, BIG in *. lia.
Qed.

(* pushing a coordinate *)
Lemma good_push P X h n q C i v c a b h' : st X h n q [] C -> In i q -> hv h i v a b -> push_coord h i c = Some h' -> c <> b -> gq P h q ->
  (forall u w, q = u ++ i :: w -> b < c /\ gedge P (odd_len u) v c a b /\ gcorner P (negb v) BIG c a b) ->
  gq P h' q /\ forall j, hol h' j = hol h j.
Proof.
  intros S Hi V Ep Nc G Hc. pose proof V as [t [l [Ht [Ev El]]]]. destruct (s_chain _ _ _ _ _ _ S i Hi) as [t' [o [M L]]].
  rewrite (mi_this _ _ _ _ M) in Ht. injection Ht as ->. pose proof (mi_this _ _ _ _ M) as Ht. pose proof (mi_other _ _ _ _ M) as Ho.
  pose proof (s_wfq _ _ _ _ _ _ S) as [Nq Q]. destruct (Q i Hi) as [Q1 [Q2 Q3]]. assert (Epi : pt h i = t_other t) by (unfold pt; rewrite Ht; reflexivity). rewrite Epi in *.
  destruct (push_heap h i t o c a b l M) as [h1 [P1 [P2 [P3 P4]]]]; [congruence|exact El|]. rewrite Ep in P1. injection P1 as <-.
  assert (Epsh : pushed c (t_line t) = c :: a :: b :: l) by (rewrite El; unfold pushed; apply Z.eqb_neq in Nc; rewrite Nc; reflexivity). rewrite Epsh in P2, P3.
  destruct (head_int X h n q [] C i v a b S Hi V) as [Ba Bb].
  assert (Gi : forall u w, q = u ++ i :: w -> gline P (odd_len u) (negb v) (c :: a :: b :: l)).
  { intros u w E. destruct (Hc u w E) as [H1 [H2 H3]]. pose proof (G u i w t E Ht) as G0. rewrite Ev, El in G0. apply gline_push; assumption. }
  split.
  - intros u j w tj E Hj. destruct (Nat.eq_dec j i) as [->|D1]; [rewrite P2 in Hj; injection Hj as <-; cbn [t_vert t_line]; rewrite Ev; apply (Gi u w E)|].
    destruct (Nat.eq_dec j (t_other t)) as [->|D2]; [|rewrite P4 in Hj by assumption; exact (G u j w tj E Hj)].
    rewrite P3 in Hj. injection Hj as <-. cbn [t_vert t_line]. destruct (in_split _ _ Hi) as [ui [wi Ei]]. rewrite <- Epi in E.
    rewrite (bal_parity (pt h) q ui i wi u w (s_bal _ _ _ _ _ _ S) Nq Ei E). pose proof (gline_rev P _ _ _ (Gi ui wi Ei)) as K.
    replace (t_vert o) with (negb (vat (negb v) (c :: a :: b :: l))); [exact K|]. rewrite (mi_vert _ _ _ _ M), Ev, El. rewrite vat_cons, negb_involutive. reflexivity.
  - intros j. unfold hol. destruct (Nat.eq_dec j i) as [->|D1]; [rewrite P2, Ht; reflexivity|]. destruct (Nat.eq_dec j (t_other t)) as [->|D2]; [rewrite P3, Ho; reflexivity|].
    rewrite P4 by assumption. reflexivity.
Qed.

(* the two ends a and b meet at the corner (X,H) *)
Definition gmeet (P : Z -> Z -> bool) (d : bool) (X y0 H xp : Z) : Prop :=
  y0 < H /\ xp < X /\ gedge P (negb d) true y0 X H /\ gedge P (negb d) false X H xp /\ gcorner P true y0 X H xp.
Lemma good_join P X h n u v a b C solid out y0 H xp h' : st X h n (u ++ a :: b :: v) [] C -> pt h a <> b -> hv h a true X y0 -> hv h b false H xp ->
  join_chains h a b solid out = Some (None, h', out) -> gq P h (u ++ a :: b :: v) -> gmeet P (odd_len u) X y0 H xp ->
  gq P h' (u ++ v) /\ forall i, In i (u ++ v) -> forall k, In k (hol h' i) -> exists j, In j (u ++ a :: b :: v) /\ In k (hol h j).
Proof.
  intros S Nab Va Vb Ej G [L1 [L2 [E1 [E2 Co]]]]. pose proof (s_wfq _ _ _ _ _ _ S) as [Nq Q]. pose proof (s_bal _ _ _ _ _ _ S) as Bq.
  assert (Ha : In a (u ++ a :: b :: v)) by inl. assert (Hb : In b (u ++ a :: b :: v)) by inl.
  destruct (head_int _ _ _ _ _ _ _ _ _ _ S Ha Va) as [B1 B2]. destruct (head_int _ _ _ _ _ _ _ _ _ _ S Hb Vb) as [B3 B4].
  destruct (Q a Ha) as [Qa1 [Qa2 Qa3]]. destruct (Q b Hb) as [Qb1 [Qb2 Qb3]].
  assert (Nba : pt h b <> a) by (intros K; apply Nab; rewrite <- K; exact Qb3).
  assert (Dab : a <> b).
  { intros K. apply cn_nodup with (i := a) in Nq. rewrite cn_app in Nq. cbn [cn] in Nq. rewrite <- K, Nat.eqb_refl in Nq. cbn [b2z] in Nq. pose proof (cn_nonneg a u). pose proof (cn_nonneg a v). lia. }
  assert (Dpp : pt h a <> pt h b) by (intros K; apply Dab; rewrite <- Qa3, <- Qb3, K; reflexivity).
  destruct (s_chain _ _ _ _ _ _ S a Ha) as [ta [oa [Ma _]]]. destruct (s_chain _ _ _ _ _ _ S b Hb) as [tb [ob [Mb _]]].
  destruct Va as [t1 [la [K1 [Ev1 El1]]]]. rewrite (mi_this _ _ _ _ Ma) in K1. injection K1 as <-.
  destruct Vb as [t2 [lb [K2 [Ev2 El2]]]]. rewrite (mi_this _ _ _ _ Mb) in K2. injection K2 as <-.
  assert (Pa : pt h a = t_other ta) by (unfold pt; rewrite (mi_this _ _ _ _ Ma); reflexivity).
  assert (Pb : pt h b = t_other tb) by (unfold pt; rewrite (mi_this _ _ _ _ Mb); reflexivity).
  destruct (join_heap h a b ta tb oa ob solid out) as [h1 [J0 [J1 [J2 [J3 [J4 J5]]]]]];
    [exact (mi_this _ _ _ _ Ma)|exact (mi_this _ _ _ _ Mb)|exact (mi_other _ _ _ _ Ma)|exact (mi_other _ _ _ _ Mb)|exact Dab|congruence|congruence|congruence|congruence|congruence|].
  rewrite Ej in J0. injection J0 as <-. rewrite <- Pa, <- Pb in *.
  assert (Ga : gline P (odd_len u) true (X :: y0 :: la)).
  { pose proof (G u a (b :: v) ta eq_refl (mi_this _ _ _ _ Ma)) as K. rewrite Ev1, El1 in K. exact K. }
  assert (Gb : gline P (negb (odd_len u)) false (H :: xp :: lb)).
  { pose proof (G (u ++ [a]) b v tb) as K. rewrite Ev2, El2, odd_len_app in K. replace (xorb (odd_len u) (odd_len [a])) with (negb (odd_len u)) in K by (destruct (odd_len u); reflexivity).
    apply K; [apps; reflexivity|exact (mi_this _ _ _ _ Mb)]. }
  pose proof (gline_join P (odd_len u) true X y0 la H xp lb Ga Gb L1 L2 B2 B4 E1 E2 Co) as Gj.
  assert (Lj : t_line oa ++ t_line tb = rev (X :: y0 :: la) ++ H :: xp :: lb) by (rewrite (mi_line _ _ _ _ Ma), El1, El2; reflexivity).
  assert (Vj : t_vert oa = negb (vat true (X :: y0 :: la))) by (rewrite (mi_vert _ _ _ _ Ma), Ev1, El1; reflexivity).
  assert (Up : forall i, In i (u ++ v) -> In i (u ++ a :: b :: v)) by (intros i; rewrite !in_app_iff; cbn [In]; tauto).
  assert (Ne : forall i, In i (u ++ v) -> i <> a /\ i <> b).
  { intros i Hi. pose proof (cn_in i _ Hi) as Ci. apply cn_nodup with (i := i) in Nq. rewrite cn_app in Ci, Nq. cbn [cn] in Nq.
    split; intros ->; rewrite ?Nat.eqb_refl in Nq; cbn [b2z] in Nq; [destruct (a =? b)%nat|destruct (b =? a)%nat]; cbn [b2z] in Nq; lia. }
  split.
  - intros u1 j v1 tj E Hj. destruct (split_del u v u1 v1 a b j E) as [u2 [v2 [E2' Od]]].
    assert (Hin : In j (u ++ v)) by (rewrite E; apply in_or_app; right; left; reflexivity). destruct (Ne j Hin) as [N1 N2].
    destruct (Nat.eq_dec j (pt h a)) as [->|D1]; [|destruct (Nat.eq_dec j (pt h b)) as [->|D2]].
    + rewrite J3 in Hj. injection Hj as <-. cbn [t_vert t_line]. rewrite Lj, Vj, <- Od, (bal_parity (pt h) _ u a (b :: v) u2 v2 Bq Nq eq_refl E2'). exact Gj.
    + rewrite J4 in Hj. injection Hj as <-. cbn [t_vert t_line]. rewrite <- Od.
      rewrite (bal_parity (pt h) _ (u ++ [a]) b v u2 v2 Bq Nq) by (try exact E2'; apps; reflexivity). rewrite odd_len_app.
      replace (negb (xorb (odd_len u) (odd_len [a]))) with (negb (negb (odd_len u))) by (destruct (odd_len u); reflexivity).
      apply gline_rev in Gj. replace (t_line ob ++ t_line ta) with (rev (rev (X :: y0 :: la) ++ H :: xp :: lb)).
      2:{ rewrite <- Lj, rev_app_distr, (mi_line _ _ _ _ Ma), rev_involutive, (mi_line _ _ _ _ Mb). reflexivity. }
      replace (t_vert ob) with (negb (vat (negb (vat true (X :: y0 :: la))) (rev (X :: y0 :: la) ++ H :: xp :: lb))); [exact Gj|].
      rewrite (mi_vert _ _ _ _ Mb), Ev2, El2, vat_app, vat_negb, vat_rev, vat_vat. reflexivity.
    + rewrite J5 in Hj by assumption. rewrite <- Od. exact (G u2 j v2 tj E2' Hj).
  - intros i Hi k Hk. destruct (Ne i Hi) as [N1 N2]. unfold hol in Hk.
    destruct (Nat.eq_dec i (pt h a)) as [->|D1]; [|destruct (Nat.eq_dec i (pt h b)) as [->|D2]].
    + rewrite J3 in Hk. cbn [t_holes] in Hk. rewrite !in_app_iff in Hk. pose proof (mi_other _ _ _ _ Ma) as Eo. rewrite <- Pa in Eo. destruct Hk as [Hk|[Hk|Hk]].
      * exists (pt h a). split; [exact Qa1|]. unfold hol. rewrite Eo. exact Hk.
      * exists a. split; [exact Ha|]. unfold hol. rewrite (mi_this _ _ _ _ Ma). exact Hk.
      * exists b. split; [exact Hb|]. unfold hol. rewrite (mi_this _ _ _ _ Mb). exact Hk.
    + rewrite J4 in Hk. cbn [t_holes] in Hk. pose proof (mi_other _ _ _ _ Mb) as Eo. rewrite <- Pb in Eo. exists (pt h b). split; [exact Qb1|]. unfold hol. rewrite Eo. exact Hk.
    + rewrite J5 in Hk by assumption. exists i. split; [apply Up; exact Hi|exact Hk].
Qed.
(* the two ends of one chain meet: a closed figure *)
Lemma good_close P X h n u v a b C y0 H xp : st X h n (u ++ a :: b :: v) [] C -> pt h a = b -> hv h a true X y0 -> hv h b false H xp ->
  gq P h (u ++ a :: b :: v) -> gmeet P (odd_len u) X y0 H xp -> gr P h (odd_len u) a.
Proof.
  intros S Pab Va Vb G [L1 [L2 [E1 [E2 Co]]]]. assert (Ha : In a (u ++ a :: b :: v)) by inl. assert (Hb : In b (u ++ a :: b :: v)) by inl.
  destruct (head_int _ _ _ _ _ _ _ _ _ _ S Ha Va) as [B1 B2]. destruct (head_int _ _ _ _ _ _ _ _ _ _ S Hb Vb) as [B3 B4].
  destruct (st_close_fig X h n u v a b C y0 H xp S Pab Va Vb) as [[_ [_ [R _]]] _]; [lia|lia|].
  destruct R as [t [o [M [V1 [Ev [Cp _]]]]]]. destruct Va as [t1 [la [K1 [Ev1 El1]]]]. rewrite (mi_this _ _ _ _ M) in K1. injection K1 as <-.
  assert (Eo : t_other t = b) by (unfold pt in Pab; rewrite (mi_this _ _ _ _ M) in Pab; exact Pab).
  destruct Vb as [o1 [lb [K2 [Ev2 El2]]]]. pose proof (mi_other _ _ _ _ M) as Mo. rewrite Eo, K2 in Mo. injection Mo as ->.
  pose proof (G u a (b :: v) t eq_refl (mi_this _ _ _ _ M)) as K. rewrite V1 in K. exists t. split; [exact (mi_this _ _ _ _ M)|].
  apply (gline_ring P (odd_len u) X y0 xp H (t_line t) la K El1); try assumption.
  - exists (rev lb). rewrite <- (rev_involutive (t_line t)), <- (mi_line _ _ _ _ M), El2. cbn [rev]. apps. reflexivity.
  - destruct Cp as [x1 [x2 [m [x3 [x4 [Em _]]]]]]. rewrite Em. cbn [length]. rewrite app_length. cbn [length]. lia.
  - apply gedge_rev in E2. rewrite negb_involutive in E2. exact E2.
  - apply gedge_rev in E1. rewrite negb_involutive in E1. exact E1.
Qed.
(* a new pair of ends *)
Lemma good_create P X h n u v pd C L : st X h n (u ++ v) pd C -> is_int X -> is_int L -> gq P h (u ++ v) -> qd P X L true true ->
  gq P (pair_heap h n X L) (u ++ (n + 1)%nat :: n :: v).
Proof.
  intros S IX IL G K.
  assert (Dom : forall i, In i (u ++ v) -> (i < n)%nat).
  { intros i Hi. destruct (s_chain _ _ _ _ _ _ S i Hi) as [t [o [M _]]]. apply (st_lt _ _ _ _ _ _ _ _ S (mi_this _ _ _ _ M)). }
  assert (E1 : pair_heap h n X L n = Some (mk_tail [X; L] true (n + 1) [])) by (unfold pair_heap; rewrite hset_ne by lia; apply hset_eq).
  assert (E2 : pair_heap h n X L (n + 1)%nat = Some (mk_tail [L; X] false n [])) by (unfold pair_heap; apply hset_eq).
  assert (E3 : forall j, (j < n)%nat -> pair_heap h n X L j = h j) by (intros j Lj; unfold pair_heap; rewrite !hset_ne by lia; reflexivity).
  assert (G1 : forall d, gline P d true [X; L] /\ gline P d false [L; X]).
  { intros d. unfold gline. cbn [app GE GC negb]. unfold gcorner. replace (X <? BIG) with true by (unfold is_int, BIG in *; lia). replace (L <? BIG) with true by (unfold is_int, BIG in *; lia). tauto. }
  intros u1 i v1 t E Ht. destruct (Nat.eq_dec i n) as [->|D1]; [rewrite E1 in Ht; injection Ht as <-; apply G1|].
  destruct (Nat.eq_dec i (n + 1)) as [->|D2]; [rewrite E2 in Ht; injection Ht as <-; apply G1|].
  replace (u ++ (n + 1)%nat :: n :: v) with ((u ++ [(n + 1)%nat; n]) ++ v) in E by (apps; reflexivity).
  assert (Q : exists u2 v2, u ++ v = u2 ++ i :: v2 /\ odd_len u2 = odd_len u1).
  { destruct (app_split _ _ _ _ _ E) as [[z [-> ->]]|[z [Eu ->]]].
    - exists (u ++ z), v1. split; [apps; reflexivity|]. rewrite !odd_len_app. destruct (odd_len u), (odd_len z); reflexivity.
    - destruct (app_split _ _ _ _ _ Eu) as [[z' [-> Ez]]|[z' [-> Ez]]].
      + destruct z' as [|c1 [|c2 [|c3 z']]]; cbn [app] in Ez; try (injection Ez; intros; congruence).
      + exists u1, (z' ++ v). split; [apps; reflexivity|reflexivity]. }
  destruct Q as [u2 [v2 [E' <-]]]. assert (Hi : In i (u ++ v)) by (rewrite E'; apply in_or_app; right; left; reflexivity).
  rewrite E3 in Ht by (apply Dom; exact Hi). exact (G u2 i v2 t E' Ht).
Qed.
