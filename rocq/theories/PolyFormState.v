(* The chains on the scan line together with the figures that have been closed:
   what the operations of the scan line do to them. *)
From Verif Require Import Base Units Scan90Spec Poly90Spec Poly90Model Poly90Proofs Set90Model PolyFormGaps PolyFormModel PolyFormLemmas PolyFormHeap PolyFormClose PolyFormGood PolyFormFlags.
From Coq Require Import Arith.

Record ST (P : Z -> Z -> bool) (fr : bool) (X : Z) (T : Z -> Z -> Z) (h : heap) (n : nat) (q pd out : list nat) : Prop := {
  T_st : st X h n q pd (fun x y => T x y - zsum (fv h x y) out + PH h x y pd);
  T_shell : forall a, In a out -> shell X h q pd a;
  T_fr : fr = true -> pd = [] /\ (forall i, In i q -> hol h i = []) /\ forall a, In a out -> hol h a = [];
  T_good : fr = false -> good P h q pd out }.

Lemma ST_step P fr X T h h' n n' q q' pd pd' out C' : ST P fr X T h n q pd out -> st X h' n' q' pd' C' -> frame h h' n q pd q' pd' ->
  (forall x y, x < X -> C' x y = T x y - zsum (fv h x y) out + PH h' x y pd') ->
  (fr = true -> pd' = [] /\ ((forall i, In i q -> hol h i = []) -> forall i, In i q' -> hol h' i = [])) ->
  (fr = false -> gq P h q -> match pd with [] => True | a :: _ => gr P h true a end -> gq P h' q' /\
    (forall i, In i (q' ++ pd') -> forall k, In k (hol h' i) -> (exists j, In j (q ++ pd) /\ In k (hol h j)) \/ (gr P h true k /\ cl X h q k)) /\
    match pd' with [] => True | a :: _ => gr P h' true a end) ->
  ST P fr X T h' n' q' pd' out.
Proof.
  intros [S1 S2 S3 S4] S' F EC Ffr Fg. pose proof (s_fresh _ _ _ _ _ _ S1) as Fr.
  assert (SF : forall a, In a out -> shell X h' q' pd' a /\ forall x y, fv h' x y a = fv h x y a).
  { intros a Ha. apply (shell_frame X h h' n q pd q' pd' a (S2 a Ha) Fr F). }
  constructor.
  - apply (st_ext X h' n' q' pd' C' _ S'). intros x y L. rewrite (EC x y L). do 2 f_equal. apply zsum_ext_in. intros a Ha. symmetry. apply SF. exact Ha.
  - intros a Ha. apply SF. exact Ha.
  - intros Efr. destruct (Ffr Efr) as [K1 K2]. destruct (S3 Efr) as [K3 [K4 K5]]. split; [exact K1|]. split; [apply K2; exact K4|].
    intros a Ha. rewrite <- (K5 a Ha). unfold hol. destruct F as [_ [F2 _]]. rewrite F2; [reflexivity| |].
    + destruct (S2 a Ha) as [[N1 _] [N2 _]]. rewrite in_app_iff. tauto.
    + destruct (S2 a Ha) as [[_ [_ [R _]]] _]. destruct (ring_dom _ _ _ R) as [[t E] _]. apply (st_lt _ _ _ _ _ _ _ _ S1 E).
  - intros Efr. specialize (S4 Efr). destruct (Fg Efr (g_q _ _ _ _ _ S4) (g_pd _ _ _ _ _ S4)) as [K1 [K2 K3]].
    apply (good_step P X h h' n q q' pd pd' out _ S1 S2 F S4 K1 K2 K3).
Qed.
Lemma frame_simple h h' n q q' : (forall j, ~ In j q -> h' j = h j) -> incl q' q -> frame h h' n q [] q' [].
Proof.
  intros F I. split; [intros j Hj _; apply same_eq, F, Hj|]. split; [intros j Hj _; apply F; rewrite app_nil_r in Hj; exact Hj|]. split; [intros j Hj; left; apply I, Hj|intros j []].
Qed.
Lemma incl_del (u v : list nat) a b : incl (u ++ v) (u ++ a :: b :: v).
Proof. intros i. apply in_del. Qed.

Lemma ST_push P fr X T h n q out i v c a b : ST P fr X T h n q [] out -> In i q -> hv h i v a b -> (if v then a = X else c = X) -> is_int c -> c <> b ->
  (fr = false -> forall u w, q = u ++ i :: w -> b < c /\ gedge P (odd_len u) v c a b /\ gcorner P (negb v) BIG c a b) ->
  exists h', push_coord h i c = Some h' /\ ST P fr X T h' n q [] out /\ hv h' i (negb v) c a /\ (forall j, pt h' j = pt h j) /\
    (forall j w k x, In j q -> j <> i -> hv h j w k x -> hv h' j w k x).
Proof.
  intros S Hi V Hx Ic Nc Hg. destruct (st_push_hv X h n q [] _ i v c a b (T_st _ _ _ _ _ _ _ _ _ S) Hi V Hx Ic Nc) as [h' [P1 [P2 [P3 [P4 [P5 [P6 P7]]]]]]].
  exists h'. split; [exact P1|]. split; [|split; [exact P3|split; [exact P5|exact P7]]].
  apply (ST_step P fr X T h h' n n q q [] [] out _ S P2); [apply frame_simple; [exact P4|intros j Hj; exact Hj]|intros; reflexivity| |].
  - intros _. split; [reflexivity|]. intros K j Hj. rewrite P6. apply K. exact Hj.
  - intros Efr G _. destruct (good_push P X h n q _ i v c a b h' (T_st _ _ _ _ _ _ _ _ _ S) Hi V P1 Nc G (Hg Efr)) as [K1 K2].
    split; [exact K1|]. split; [|exact I]. intros j Hj k Hk. left. exists j. rewrite K2 in Hk. tauto.
Qed.
(* a coordinate that is taken back *)
Lemma ST_pop P fr X T h n q out i t k y0 l : fr = true -> ST P fr X T h n q [] out -> In i q -> h i = Some t -> t_vert t = false -> t_line t = k :: X :: y0 :: l -> is_int X ->
  exists h', push_coord h i X = Some h' /\ ST P fr X T h' n q [] out /\ hv h' i true X y0 /\
    (forall j w k x, In j q -> j <> i -> hv h j w k x -> hv h' j w k x).
Proof.
  intros Efr S Hi Ht Hv El IX. pose proof (T_st _ _ _ _ _ _ _ _ _ S) as S0.
  destruct (st_push X h n q [] _ i t X k X (y0 :: l) S0 Hi Ht El) as [h' [o [P1 [P2 [P3 [P4 [P5 P6]]]]]]]; [rewrite Hv; reflexivity|exact IX|discriminate|].
  assert (Epsh : pushed X (t_line t) = X :: y0 :: l) by (rewrite El; unfold pushed; rewrite Z.eqb_refl; reflexivity).
  exists h'. split; [exact P1|]. rewrite Epsh in P4, P5.
  destruct (s_chain _ _ _ _ _ _ S0 i Hi) as [t' [o' [M L]]]. assert (t' = t) by (pose proof (mi_this _ _ _ _ M); congruence). subst t'.
  assert (Ep : pt h i = t_other t) by (unfold pt; rewrite Ht; reflexivity). rewrite Ep in *.
  assert (o' = o) by (pose proof (mi_other _ _ _ _ M); congruence). subst o'.
  pose proof (s_wfq _ _ _ _ _ _ S0) as [N Q]. destruct (Q i Hi) as [Q1 [Q2 Q3]]. rewrite Ep in Q1, Q2.
  split; [|split].
  - apply (ST_step P fr X T h h' n n q q [] [] out _ S P2); [apply frame_simple; [intros j Hj; apply P6; intros ->; tauto|intros j Hj; exact Hj]|intros; reflexivity| |congruence].
    intros _. split; [reflexivity|]. intros K j Hj. rewrite <- (K j Hj). unfold hol. destruct (Nat.eq_dec j i) as [->|D1]; [rewrite P4, Ht; reflexivity|].
    destruct (Nat.eq_dec j (t_other t)) as [->|D2]; [rewrite P5, P3; reflexivity|]. rewrite (P6 j D1 D2). reflexivity.
  - eexists. exists l. split; [exact P4|]. cbn [t_vert t_line]. rewrite Hv. tauto.
  - intros j w k' x Hj Dj [tj [lj [H1 [H2 H3]]]]. destruct (Nat.eq_dec j (t_other t)) as [->|D2].
    + rewrite P3 in H1. injection H1 as <-. rewrite (mi_line _ _ _ _ M) in H3.
      destruct (rev_pushed_hd X (t_line t) k' x lj) as [m' Em]; [rewrite Epsh; cbn [length]; lia|exact H3|]. rewrite Epsh in Em.
      eexists. exists m'. split; [exact P5|]. cbn [t_vert t_line]. tauto.
    + exists tj, lj. rewrite (P6 j Dj D2). tauto.
Qed.

(* joinChains at the top of an edge that has the solid below it *)
Lemma ST_join P fr X T h n u v a b out y0 H xp solid : ST P fr X T h n (u ++ a :: b :: v) [] out -> pt h a <> b ->
  hv h a true X y0 -> hv h b false H xp -> y0 <> H -> xp <> X -> (fr = false -> gmeet P (odd_len u) X y0 H xp) ->
  exists h', join_chains h a b solid out = Some (None, h', out) /\ ST P fr X T h' n (u ++ v) [] out /\
    (forall j w k x, In j (u ++ v) -> hv h j w k x -> hv h' j w k x).
Proof.
  intros S Nab Va Vb N1 N2 Hg.
  destruct (st_join X h n u v a b _ a b solid out true X y0 H xp (T_st _ _ _ _ _ _ _ _ _ S) Nab) as [h' [P1 [P2 [P3 [P4 P5]]]]];
    [left; tauto|exact Va|exact Vb|exact N1|congruence|reflexivity|].
  exists h'. split; [exact P1|]. split; [|exact P4].
  apply (ST_step P fr X T h h' n n (u ++ a :: b :: v) (u ++ v) [] [] out _ S P2); [apply frame_simple; [exact P3|apply incl_del]|intros; reflexivity| |].
  - intros _. split; [reflexivity|exact P5].
  - intros Ef G _. destruct (good_join P X h n u v a b _ solid out y0 H xp h' (T_st _ _ _ _ _ _ _ _ _ S) Nab Va Vb P1 G (Hg Ef)) as [K1 K2].
    split; [exact K1|]. split; [|exact I]. intros i Hi k Hk. rewrite app_nil_r in *. left. apply (K2 i Hi k Hk).
Qed.
Lemma ST_join_rev P fr X T h n u v a b out k xp yh : fr = true -> ST P fr X T h n (u ++ a :: b :: v) [] out -> pt h a <> b ->
  hv h a true X yh -> hv h b false k xp -> yh <> k -> xp <> X ->
  exists h', join_chains h b a false [] = Some (None, h', []) /\ ST P fr X T h' n (u ++ v) [] out /\
    (forall j w k x, In j (u ++ v) -> hv h j w k x -> hv h' j w k x).
Proof.
  intros Efr S Nab Va Vb N1 N2. destruct (T_fr _ _ _ _ _ _ _ _ _ S Efr) as [_ [Nil _]].
  destruct (st_join X h n u v a b _ b a false [] false k xp X yh (T_st _ _ _ _ _ _ _ _ _ S) Nab) as [h' [P1 [P2 [P3 [P4 P5]]]]];
    [right; tauto|exact Vb|exact Va|exact N2|congruence|reflexivity|].
  exists h'. split; [exact P1|]. split; [|exact P4].
  apply (ST_step P fr X T h h' n n (u ++ a :: b :: v) (u ++ v) [] [] out _ S P2); [apply frame_simple; [exact P3|apply incl_del]|intros; reflexivity| |congruence].
  intros _. split; [reflexivity|exact P5].
Qed.
Lemma ST_close P fr X T h n u v a b out y0 H xp : ST P fr X T h n (u ++ a :: b :: v) [] out -> odd_len u = false ->
  hv h a true X y0 -> hv h b false H xp -> y0 <> H -> xp <> X -> (fr = false -> gmeet P false X y0 H xp) ->
  exists h' out', join_chains h a b false out = Some (None, h', out') /\ ST P fr X T h' n (u ++ v) [] out' /\
    (forall j w k x, In j (u ++ v) -> hv h j w k x -> hv h' j w k x).
Proof.
  intros S Od Va Vb N1 N2 Hg. destruct (Nat.eq_dec (pt h a) b) as [Pab|Nab].
  2:{ destruct (ST_join P fr X T h n u v a b out y0 H xp false S Nab Va Vb N1 N2) as [h' [P1 [P2 P3]]]; [rewrite Od; exact Hg|]. exists h', out. tauto. }
  pose proof (T_st _ _ _ _ _ _ _ _ _ S) as S0. pose proof (s_fresh _ _ _ _ _ _ S0) as Fr.
  destruct (st_close_fig X h n u v a b _ y0 H xp S0 Pab Va Vb N1 N2) as [Ca [Pba [Na [Nb [Dab _]]]]].
  destruct (st_close_shell X h n u v a b _ out y0 H xp S0 Pab Od Va Vb N1 N2) as [h' [P1 [P2 [P3 [P4 [Sa P5]]]]]].
  exists h', (out ++ [a]). split; [exact P1|].
  assert (F : frame h h' n (u ++ a :: b :: v) [] (u ++ v) []).
  { apply frame_simple; [|apply incl_del]. intros j Hj. apply P2; intros ->; apply Hj; inl. }
  assert (SF : forall s, In s out -> shell X h' (u ++ v) [] s /\ forall x y, fv h' x y s = fv h x y s).
  { intros s Hs. apply (shell_frame X h h' n _ _ _ _ s (T_shell _ _ _ _ _ _ _ _ _ S s Hs) Fr F). }
  split; [constructor|].
  - apply (st_ext X h' n (u ++ v) [] _ _ P5). intros x y L. rewrite PolyFormGaps.zsum_app, zsum_one. cbn [PH]. change (zsum (fv h' x y) []) with 0.
    rewrite (zsum_ext_in (fv h' x y) (fv h x y) out) by (intros s Hs; apply SF; exact Hs). lia.
  - intros s Hs. rewrite in_app_iff in Hs. destruct Hs as [Hs|[<-|[]]]; [apply SF; exact Hs|exact P3].
  - intros Efr. destruct (T_fr _ _ _ _ _ _ _ _ _ S Efr) as [_ [K1 K2]]. split; [reflexivity|]. split.
    + intros i Hi. rewrite <- (K1 i (in_del u v a b i Hi)). unfold hol. rewrite P2; [reflexivity| |]; intros ->; tauto.
    + intros s Hs. rewrite in_app_iff in Hs. destruct Hs as [Hs|[<-|[]]].
      * rewrite <- (K2 s Hs). unfold hol. destruct (T_shell _ _ _ _ _ _ _ _ _ S s Hs) as [[N _] _]. rewrite P2; [reflexivity| |]; intros ->; apply N; inl.
      * rewrite P4, !K1 by inl. reflexivity.
  - intros Ef. pose proof (T_good _ _ _ _ _ _ _ _ _ S Ef) as G.
    assert (Ga : gr P h false a) by (rewrite <- Od; apply (good_close P X h n u v a b _ y0 H xp S0 Pab Va Vb (g_q _ _ _ _ _ G)); rewrite Od; apply Hg; exact Ef).
    assert (Gs : good P h' (u ++ v) [] out).
    { apply (good_step P X h h' n (u ++ a :: b :: v) (u ++ v) [] [] out _ S0 (T_shell _ _ _ _ _ _ _ _ _ S) F G); [| |exact I].
      - apply (gq_same P h); [apply (gq_del P h u v a b), (g_q _ _ _ _ _ G)| |].
        + intros i Hi. destruct (s_chain _ _ _ _ _ _ S0 i (in_del u v a b i Hi)) as [t [o [M _]]]. exists t. exact (mi_this _ _ _ _ M).
        + intros i Hi. apply same_eq, P2; intros ->; tauto.
      - intros i Hi k Hk. left. exists i. rewrite app_nil_r in *. split; [apply in_del; exact Hi|]. unfold hol in *. rewrite P2 in Hk; [exact Hk| |]; intros ->; tauto. }
    constructor; [exact (g_q _ _ _ _ _ Gs)| | |exact I].
    + intros i [Hi|Hi] k Hk; [exact (g_hol _ _ _ _ _ Gs i (or_introl Hi) k Hk)|]. rewrite in_app_iff in Hi. destruct Hi as [Hi|[<-|[]]]; [exact (g_hol _ _ _ _ _ Gs i (or_intror Hi) k Hk)|].
      assert (Hj : exists j, In j ((u ++ a :: b :: v) ++ []) /\ In k (hol h j)).
      { rewrite P4, in_app_iff in Hk. rewrite app_nil_r. destruct Hk as [Hk|Hk]; [exists a|exists b]; (split; [inl|exact Hk]). }
      destruct Hj as [j [Hj Hkj]]. apply (gr_same P h h' true k (g_hol _ _ _ _ _ G j (or_introl Hj) k Hkj)).
      destruct (s_hole _ _ _ _ _ _ S0 j Hj k Hkj) as [Nk [_ [R _]]]. destruct F as [F1 _]. apply F1; [exact Nk|]. destruct (ring_dom _ _ _ R) as [[t E] _]. apply (st_lt _ _ _ _ _ _ _ _ S0 E).
    + intros s Hs. rewrite in_app_iff in Hs. destruct Hs as [Hs|[<-|[]]]; [apply (g_out _ _ _ _ _ Gs s Hs)|]. apply (gr_same P h h' false a Ga Sa).
  - intros j w k x Hj V. apply (hv_eq h); [|exact V]. apply P2; intros ->; tauto.
Qed.
(* a hole is closed and waits for its place; when holes are fractured it stays
   on the scan line *)
Lemma ST_hole P X T h n u v a b out y0 H xp : ST P false X T h n (u ++ a :: b :: v) [] out -> odd_len u = true -> pt h a = b ->
  hv h a true X y0 -> hv h b false H xp -> y0 <> H -> xp <> X -> gmeet P true X y0 H xp ->
  join_chains h a b true out = Some (Some a, h, out) /\ ST P false X T h n (u ++ v) [a; b] out /\ pend X h u v a b.
Proof.
  intros S Od Pab Va Vb N1 N2 Hg. destruct (st_close_hole X h n u v a b _ out y0 H xp (T_st _ _ _ _ _ _ _ _ _ S) Pab Od Va Vb N1 N2) as [P1 [P2 P3]].
  split; [exact P1|]. split; [|exact P3].
  apply (ST_step P false X T h h n n (u ++ a :: b :: v) (u ++ v) [] [a; b] out _ S P2); [| |discriminate|].
  - split; [intros j _ _; apply same_eq; reflexivity|]. split; [reflexivity|]. split; [intros j Hj; left; apply in_del; exact Hj|].
    intros j [<-|[<-|[]]]; left; rewrite app_nil_r; inl.
  - intros x y _. cbn [PH]. lia.
  - intros _ G _. split; [apply (gq_del P h u v a b); exact G|]. split.
    + intros i Hi k Hk. left. exists i. split; [|exact Hk]. rewrite app_nil_r. rewrite in_app_iff in Hi. destruct Hi as [Hi|[<-|[<-|[]]]]; [apply in_del; exact Hi|inl|inl].
    + rewrite <- Od. apply (good_close P X h n u v a b _ y0 H xp (T_st _ _ _ _ _ _ _ _ _ S) Pab Va Vb G). rewrite Od. exact Hg.
Qed.
Lemma ST_hole_fr P fr X T h n u v a b out : ST P fr X T h n (u ++ a :: b :: v) [] out -> pt h a = b ->
  join_chains h a b true out = Some (Some a, h, out).
Proof.
  intros S Pab. destruct (s_chain _ _ _ _ _ _ (T_st _ _ _ _ _ _ _ _ _ S) a) as [t [o [M _]]]; [inl|]. unfold join_chains. rewrite (mi_this _ _ _ _ M). cbn [bind].
  unfold pt in Pab. rewrite (mi_this _ _ _ _ M) in Pab. rewrite Pab, Nat.eqb_refl. reflexivity.
Qed.
Lemma ST_attach P fr X T h n u i v a b out : ST P fr X T h n (u ++ i :: v) [a; b] out -> pend X h u (i :: v) a b ->
  exists h', add_hole h i a false = Some (i, h') /\ ST P fr X T h' n (u ++ i :: v) [] out /\
    (forall j w k x, hv h j w k x -> hv h' j w k x).
Proof.
  intros S [Od [Pab [Dab [Va [Hb [Ca [Nb Hc]]]]]]].
  destruct (st_attach X h n (u ++ i :: v) a b i _ (T_st _ _ _ _ _ _ _ _ _ S)) as [h' [P1 [P2 [P3 [P4 [P5 P6]]]]]]; [inl|exact Ca|exact Pab|exact Dab|exact Hb|exact Nb| |].
  { intros x y L. destruct (Hc x y L) as [K1 [K2 K3]]. split; [exact K1|]. split; [exact K2|]. intros K. exists u, v. split; [reflexivity|]. rewrite Od. apply K3. exact K. }
  exists h'. split; [exact P1|]. split; [|exact P4].
  apply (ST_step P fr X T h h' n n _ _ _ [] out _ S P2 P3).
  - intros x y L. cbn [PH]. lia.
  - intros Efr. destruct (T_fr _ _ _ _ _ _ _ _ _ S Efr) as [K _]. discriminate K.
  - intros _ G Ga. split; [|split; [|exact I]].
    + apply (gq_same P h); [exact G| |intros j _; apply P5]. intros j Hj. destruct (s_chain _ _ _ _ _ _ (T_st _ _ _ _ _ _ _ _ _ S) j Hj) as [t [o [M _]]]. exists t. exact (mi_this _ _ _ _ M).
    + intros j Hj k Hk. rewrite app_nil_r in Hj. destruct (P6 j k Hj Hk) as [->|K]; [right; tauto|left; exact K].
Qed.
Lemma ST_create P fr X T h n u v out L : ST P fr X T h n (u ++ v) [] out -> is_int X -> is_int L -> (fr = false -> qd P X L true true) ->
  exists h', create_pair h n X L None fr = Some (n, (n + 1)%nat, h', (n + 2)%nat) /\ ST P fr X T h' (n + 2) (u ++ (n + 1)%nat :: n :: v) [] out /\
    hv h' n true X L /\ hv h' (n + 1) false L X /\ (forall j w k x, In j (u ++ v) -> hv h j w k x -> hv h' j w k x).
Proof.
  intros S IX IL Hg. pose proof (T_st _ _ _ _ _ _ _ _ _ S) as S0.
  destruct (st_create X h n u v [] _ L S0 IX IL) as [P1 [P2 [P3 P4]]]; [intros j []|].
  assert (Dom : forall i, In i (u ++ v) -> (i < n)%nat).
  { intros i Hi. destruct (s_chain _ _ _ _ _ _ S0 i Hi) as [t [o [M _]]]. apply (st_lt _ _ _ _ _ _ _ _ S0 (mi_this _ _ _ _ M)). }
  exists (pair_heap h n X L). split; [unfold create_pair; destruct fr; reflexivity|]. split; [|split; [exact P3|split; [exact P4|]]].
  - apply (ST_step P fr X T h _ n (n + 2) (u ++ v) _ [] [] out _ S P1); [|intros; reflexivity| |].
    + split; [intros j _ Lj; apply same_eq, P2, Lj|]. split; [intros j _ Lj; apply P2, Lj|]. split; [|intros j []].
      intros j. rewrite !in_app_iff. cbn [In]. intros [K|[<-|[<-|K]]]; [tauto|right; lia|right; lia|tauto].
    + intros _. split; [reflexivity|]. intros K i. rewrite in_app_iff. cbn [In]. intros Hi.
      assert (C : i = (n + 1)%nat \/ i = n \/ In i (u ++ v)) by (rewrite in_app_iff; intuition congruence).
      destruct C as [->|[->|C]].
      * destruct P4 as [t [l [E _]]]. unfold pair_heap in *. unfold hol. rewrite hset_eq. reflexivity.
      * unfold hol, pair_heap. rewrite hset_ne by lia. rewrite hset_eq. reflexivity.
      * rewrite <- (K i C). unfold hol. rewrite P2 by (apply Dom; exact C). reflexivity.
    + intros Ef G _. split; [apply (good_create P X h n u v [] _ L S0 IX IL G (Hg Ef))|]. split; [|exact I]. intros i Hi k Hk. left. rewrite !app_nil_r in *.
      exists i. rewrite in_app_iff in Hi. cbn [In] in Hi.
      assert (C : i = (n + 1)%nat \/ i = n \/ In i (u ++ v)) by (rewrite in_app_iff; intuition congruence).
      destruct C as [->|[->|C]]; [exfalso; unfold hol, pair_heap in Hk; rewrite hset_eq in Hk; exact Hk|exfalso; unfold hol, pair_heap in Hk; rewrite hset_ne in Hk by lia; rewrite hset_eq in Hk; exact Hk|].
      split; [exact C|]. unfold hol in *. rewrite P2 in Hk by (apply Dom; exact C). exact Hk.
  - intros j w k x Hj V. apply (hv_eq h); [apply P2, Dom, Hj|exact V].
Qed.
Lemma ST_create_hole P X T h n u v a b out L : ST P false X T h n (u ++ v) [a; b] out -> pend X h u v a b -> is_int X -> is_int L -> qd P X L true true ->
  exists h', create_pair h n X L (Some a) false = Some (n, (n + 1)%nat, h', (n + 2)%nat) /\ ST P false X T h' (n + 2) (u ++ (n + 1)%nat :: n :: v) [] out /\
    hv h' n true X L /\ hv h' (n + 1) false L X /\ (forall j w k x, In j (u ++ v) -> hv h j w k x -> hv h' j w k x).
Proof.
  intros S [Od [Pab [Dab [Va [[tb Hb] [Ca [Nb Hc]]]]]]] IX IL Hg. pose proof (T_st _ _ _ _ _ _ _ _ _ S) as S0. pose proof (s_wfq _ _ _ _ _ _ S0) as Qq.
  assert (Ha : exists t, h a = Some t) by (destruct Va as [y0 [t [l [E _]]]]; exists t; exact E). destruct Ha as [ta Ha].
  pose proof (st_lt _ _ _ _ _ _ _ _ S0 Ha) as La. pose proof (st_lt _ _ _ _ _ _ _ _ S0 Hb) as Lb.
  destruct (st_create X h n u v [a; b] _ L S0 IX IL) as [P1 [P2 [P3 P4]]]; [intros j [<-|[<-|[]]]; eauto|].
  set (h1 := pair_heap h n X L) in *.
  assert (Dom : forall i, In i (u ++ v) -> (i < n)%nat).
  { intros i Hi. destruct (s_chain _ _ _ _ _ _ S0 i Hi) as [t [o [M _]]]. apply (st_lt _ _ _ _ _ _ _ _ S0 (mi_this _ _ _ _ M)). }
  assert (F : frame h h1 n (u ++ v) [a; b] (u ++ (n + 1)%nat :: n :: v) [a; b]).
  { split; [intros j _ Lj; apply same_eq, P2, Lj|]. split; [intros j _ Lj; apply P2, Lj|]. split.
    - intros j. rewrite !in_app_iff. cbn [In]. intros [K|[<-|[<-|K]]]; [tauto|right; lia|right; lia|tauto].
    - intros j Hj. left. apply in_or_app. right. exact Hj. }
  assert (Cl : forall k, cl X h (u ++ v) k -> cl X h1 (u ++ (n + 1)%nat :: n :: v) k /\ forall x y, RW h1 x y k = RW h x y k).
  { intros k Hk. destruct F as [F1 [_ [F3 _]]]. exact (cl_frame X h h1 n _ _ k Hk (s_fresh _ _ _ _ _ _ S0) F1 F3). }
  assert (HSe : forall x y i, In i ((u ++ v) ++ [a; b]) -> HS h1 x y i = HS h x y i).
  { intros x y i Hi. unfold HS. assert (E : h1 i = h i).
    { apply P2. rewrite in_app_iff in Hi. destruct Hi as [Hi|[<-|[<-|[]]]]; [apply Dom; exact Hi|exact La|exact Lb]. }
    unfold hol at 1. rewrite E. apply zsum_ext_in. intros k Hk. apply Cl. exact (s_hole _ _ _ _ _ _ S0 i Hi k Hk). }
  assert (PHe : forall x y, PH h1 x y [a; b] = PH h x y [a; b]).
  { intros x y. unfold PH. rewrite (proj2 (Cl a Ca)). f_equal. apply zsum_ext_in. intros i Hi. apply HSe. apply in_or_app. right. exact Hi. }
  assert (Pt : forall i, In i (u ++ v) -> pt h1 i = pt h i) by (intros i Hi; unfold pt; rewrite P2 by (apply Dom; exact Hi); reflexivity).
  assert (E1 : h1 n = Some (mk_tail [X; L] true (n + 1) [])) by (unfold h1, pair_heap; rewrite hset_ne by lia; apply hset_eq).
  assert (E2 : h1 (n + 1)%nat = Some (mk_tail [L; X] false n [])) by (unfold h1, pair_heap; apply hset_eq).
  destruct (st_attach X h1 (n + 2) (u ++ (n + 1)%nat :: n :: v) a b n _ P1) as [h2 [R1 [R2 [R3 [R4 [R5 R6]]]]]].
  - inl.
  - apply Cl. exact Ca.
  - unfold pt. rewrite P2 by exact La. exact Pab.
  - exact Dab.
  - exists tb. rewrite P2 by exact Lb. exact Hb.
  - rewrite in_app_iff in Nb |- *. cbn [In]. intros [K|[K|[K|K]]]; [tauto|lia|lia|tauto].
  - intros x y Lx. destruct (Hc x y Lx) as [K1 [K2 K3]]. rewrite PHe. split; [exact K1|]. split.
    + replace (zsum (HS h1 x y) (u ++ (n + 1)%nat :: n :: v)) with (zsum (HS h x y) (u ++ v)); [exact K2|].
      rewrite <- (zsum_ext_in (HS h1 x y) (HS h x y) (u ++ v)) by (intros i Hi; apply HSe, in_or_app; left; exact Hi).
      rewrite !PolyFormGaps.zsum_app, !zsum_one. unfold HS at 4 5. unfold hol. rewrite E1, E2. cbn [t_holes zsum fold_right]. lia.
    + intros K. apply (insert_sgap (pt h) (pt h1) (n + 1) n u v Qq) with (w := W h x y); [..|exact Od|apply K3; exact K].
      * intros C. apply Dom in C. lia.
      * intros C. apply Dom in C. lia.
      * lia.
      * unfold pt. rewrite E2. reflexivity.
      * unfold pt. rewrite E1. reflexivity.
      * exact Pt.
      * unfold W. rewrite E2. cbn [t_vert t_line ck]. unfold pr. replace (X <=? x) with false by lia. reflexivity.
      * unfold W. rewrite E1. cbn [t_vert t_line ck]. unfold pr. replace (X <=? x) with false by lia. reflexivity.
      * intros i Hi. unfold W. rewrite P2 by (apply Dom; exact Hi). reflexivity.
  - exists h2. split; [unfold create_pair; fold (pair_heap h n X L); fold h1; rewrite R1; reflexivity|].
    split; [|split; [apply R4; exact P3|split; [apply R4; exact P4|intros j w k x Hj V; apply R4, (hv_eq h); [apply P2, Dom, Hj|exact V]]]].
    assert (S1 : ST P false X T h1 (n + 2) (u ++ (n + 1)%nat :: n :: v) [a; b] out).
    { apply (ST_step P false X T h h1 n (n + 2) (u ++ v) _ [a; b] [a; b] out _ S P1 F); [|discriminate|].
      - intros x y Lx. rewrite PHe. reflexivity.
      - intros _ G Ga. split; [apply (good_create P X h n u v [a; b] _ L S0 IX IL G Hg)|]. split; [|apply (gr_same P h h1 true a Ga), same_eq, P2, La].
        intros i Hi k Hk. left. exists i. rewrite !in_app_iff in *. cbn [In] in *.
        assert (C : i = (n + 1)%nat \/ i = n \/ (In i (u ++ v) \/ i = a \/ i = b)) by (rewrite in_app_iff; intuition congruence).
        destruct C as [->|[->|C]]; [exfalso; unfold hol in Hk; rewrite E2 in Hk; exact Hk|exfalso; unfold hol in Hk; rewrite E1 in Hk; exact Hk|].
        split; [rewrite in_app_iff in C; intuition congruence|]. unfold hol in *. rewrite P2 in Hk; [exact Hk|]. destruct C as [C|[->| ->]]; [apply Dom; exact C|exact La|exact Lb]. }
    apply (ST_step P false X T h1 h2 (n + 2) (n + 2) _ _ [a; b] [] out _ S1 R2 R3); [|discriminate|].
    2:{ intros _ G Ga. split; [|split; [|exact I]].
      - apply (gq_same P h1); [exact G| |intros j _; apply R5]. intros j Hj. destruct (s_chain _ _ _ _ _ _ P1 j Hj) as [t [o [M _]]]. exists t. exact (mi_this _ _ _ _ M).
      - intros j Hj k Hk. rewrite app_nil_r in Hj. destruct (R6 j k Hj Hk) as [->|K]; [right; split; [exact Ga|apply Cl; exact Ca]|left; exact K]. }
    assert (Fr := s_fresh _ _ _ _ _ _ S0).
    intros x y Lx. rewrite PHe. cbn [PH]. rewrite (zsum_ext_in (fv h1 x y) (fv h x y) out); [lia|].
    intros s Hs. apply (shell_frame X h h1 n _ _ _ _ s (T_shell _ _ _ _ _ _ _ _ _ S s Hs) Fr F).
Qed.

(* addHole with fracturing: the lower end [b] of the hole is joined with the
   chain [i] above it *)
Lemma ST_fracture P X T h n u v a b i out y0 H xp k xk : ST P true X T h n (u ++ a :: b :: i :: v) [] out -> is_int X -> pt h a = b ->
  hv h a true X y0 -> hv h b false H xp -> hv h i false k xk -> xp <> X -> xk <> X -> H <> k ->
  exists h', add_hole h i a true = Some (a, h') /\ ST P true X T h' n (u ++ a :: v) [] out /\ hv h' a true X y0 /\
    (forall j w k x, In j (u ++ v) -> hv h j w k x -> hv h' j w k x).
Proof.
  intros S IX Pab Va Vb Vi N1 N2 N3. pose proof (s_wfq _ _ _ _ _ _ (T_st _ _ _ _ _ _ _ _ _ S)) as [Nq Q].
  assert (Dj : forall j, In j (u ++ a :: v) -> j <> b /\ j <> i).
  { intros j Hj. pose proof (cn_in j _ Hj) as Cj. apply cn_nodup with (i := j) in Nq. rewrite cn_app in Cj, Nq. cbn [cn] in Cj, Nq.
    split; intros ->; rewrite Nat.eqb_refl in Nq; cbn [b2z] in Nq; destruct (_ =? a)%nat; try destruct (b =? i)%nat; try destruct (i =? b)%nat; cbn [b2z] in *; lia. }
  assert (Dbi : b <> i).
  { intros ->. apply cn_nodup with (i := i) in Nq. rewrite cn_app in Nq. cbn [cn] in Nq. rewrite Nat.eqb_refl in Nq. cbn [b2z] in Nq.
    pose proof (cn_nonneg i u). pose proof (cn_nonneg i v). destruct (i =? a)%nat; cbn [b2z] in Nq; lia. }
  destruct (Dj a) as [Dab Dai]; [inl|].
  assert (Pba : pt h b = a) by (rewrite <- Pab; apply Q; inl).
  destruct (ST_push P true X T h n _ out b false X H xp S) as [h1 [P1 [P2 [P3 [P4 P5]]]]]; [inl|exact Vb|reflexivity|exact IX|congruence|discriminate|].
  replace (u ++ a :: b :: i :: v) with ((u ++ [a]) ++ b :: i :: v) in P2 by (apps; reflexivity).
  destruct (ST_join_rev P true X T h1 n (u ++ [a]) v b i out k xk H eq_refl P2) as [h2 [R1 [R2 R3]]].
  - rewrite P4. congruence.
  - exact P3.
  - apply P5; [inl|congruence|exact Vi].
  - exact N3.
  - exact N2.
  - exists h2. assert (A : add_hole h i a true = Some (a, h2)).
    { destruct Va as [ta [la [A1 [A2 A3]]]]. destruct Vb as [tb [lb [B1 [B2 B3]]]]. unfold pt in Pab. rewrite A1 in Pab.
      unfold add_hole. rewrite A1. cbn [bind]. rewrite Pab, B1. cbn [bind]. rewrite B2. unfold last_coord. rewrite A1. cbn [bind]. rewrite A3. cbn [bind].
      rewrite P1. cbn [bind]. rewrite R1. reflexivity. }
    split; [exact A|]. replace ((u ++ [a]) ++ v) with (u ++ a :: v) in * by (apps; reflexivity). split; [exact R2|]. split.
    + apply R3; [inl|]. apply P5; [inl|exact Dab|exact Va].
    + intros j w k' x Hj V. apply R3; [revert Hj; rewrite !in_app_iff; cbn [In]; tauto|]. apply P5; [|apply Dj; revert Hj; rewrite !in_app_iff; cbn [In]; tauto|exact V].
      revert Hj. rewrite !in_app_iff. cbn [In]. tauto.
Qed.
(* createActiveTailsAsPair with a hole to fracture *)
Lemma ST_create_fr P X T h n u v a b out y0 H xp L : ST P true X T h n (u ++ a :: b :: v) [] out -> is_int X -> is_int L -> pt h a = b ->
  hv h a true X y0 -> hv h b false H xp -> xp <> X -> L <> y0 ->
  exists h', create_pair h n X L (Some a) true = Some (b, a, h', n) /\ ST P true X T h' n (u ++ a :: b :: v) [] out /\ hv h' a false L X /\ hv h' b true X H /\
    (forall j w k x, In j (u ++ v) -> hv h j w k x -> hv h' j w k x).
Proof.
  intros S IX IL Pab Va Vb N1 N2. pose proof (s_wfq _ _ _ _ _ _ (T_st _ _ _ _ _ _ _ _ _ S)) as Qq.
  destruct (close_facts (pt h) (W h 0 0) (W h 0 0) a b u v Qq Pab) as [F1 [F2 [F3 [F4 [F5 F6]]]]].
  destruct (ST_push P true X T h n _ out b false X H xp S) as [h1 [P1 [P2 [P3 [P4 P5]]]]]; [inl|exact Vb|reflexivity|exact IX|congruence|discriminate|].
  destruct (ST_push P true X T h1 n _ out a true L X y0 P2) as [h2 [R1 [R2 [R3 [R4 R5]]]]]; [inl|apply P5; [inl|exact F4|exact Va]|reflexivity|exact IL|exact N2|discriminate|].
  exists h2. split; [|split; [exact R2|split; [exact R3|split; [apply R5; [inl|congruence|exact P3]|]]]].
  - destruct Va as [ta [la [A1 [A2 A3]]]]. unfold pt in Pab. rewrite A1 in Pab. unfold create_pair. rewrite A1. cbn [bind]. rewrite A2, A1. cbn [bind].
    rewrite Pab, P1. cbn [bind]. rewrite R1. reflexivity.
  - intros j w k x Hj V. destruct (F6 j Hj) as [D1 [D2 _]]. apply R5; [apply in_del; exact Hj|exact D1|]. apply P5; [apply in_del; exact Hj|exact D2|exact V].
Qed.

(* ---------- the next column ---------- *)
Definition ids_le (y : Z) (m : tmap) : list nat := ids (filter (fun e => fst e <=? y) m).
Lemma filter_split y m : ksorted m -> m = filter (fun e => fst e <=? y) m ++ filter (fun e => negb (fst e <=? y)) m.
Proof.
  induction m as [|[k i] m IH]; intros K; [reflexivity|]. rewrite ksorted_cons in K. destruct K as [K1 K2]. cbn [filter fst].
  destruct (Z.leb_spec k y) as [L|L]; cbn [negb].
  - cbn [app]. f_equal. apply IH. exact K1.
  - assert (E : forall m', Forall (fun e : Z * nat => k < fst e) m' -> filter (fun e => fst e <=? y) m' = [] /\ filter (fun e => negb (fst e <=? y)) m' = m').
    { induction 1 as [|[k' i'] m' H1 H2 [E1 E2]]; [split; reflexivity|]. cbn [filter fst] in *. replace (k' <=? y) with false by lia. cbn [negb]. rewrite E1, E2. split; reflexivity. }
    destruct (E m K2) as [E1 E2]. rewrite E1, E2. reflexivity.
Qed.
Lemma ids_le_in y m k i : ksorted m -> NoDup (ids m) -> In (k, i) m -> cn i (ids_le y m) = b2z (k <=? y).
Proof.
  intros K N Hi. unfold ids_le. pose proof (filter_split y m K) as E. set (m1 := filter (fun e => fst e <=? y) m) in *. set (m2 := filter (fun e => negb (fst e <=? y)) m) in *.
  destruct (Z.leb_spec k y) as [L|L]; cbn [b2z].
  - apply nodup_cn.
    + rewrite E in N. unfold ids in N. rewrite map_app, <- (app_nil_r (map snd m2)) in N. apply nodup_del in N. rewrite app_nil_r in N. exact N.
    + unfold ids. apply in_map_iff. exists (k, i). split; [reflexivity|]. unfold m1. apply filter_In. split; [exact Hi|]. cbn [fst]. lia.
  - apply cn_out. intros Hin. assert (H2 : In i (ids m2)).
    { unfold ids. apply in_map_iff. exists (k, i). split; [reflexivity|]. unfold m2. apply filter_In. split; [exact Hi|]. cbn [fst]. lia. }
    rewrite E in N. unfold ids in N, Hin, H2. rewrite map_app in N. apply (cn_nodup i) in N. rewrite cn_app in N. apply cn_in in Hin, H2. lia.
Qed.
Lemma st_next X X' h n M C C' : st X h n (ids M) [] C -> X < X' -> ksorted M -> (forall k i, In (k, i) M -> exists xp, hv h i false k xp) ->
  (forall x y, x < X -> C' x y = C x y) -> (forall x y, X <= x < X' -> C' x y = b2z (odd_len (ids_le y M))) ->
  st X' h n (ids M) [] C'.
Proof.
  intros S L K Hd C1 C2. pose proof (s_wfq _ _ _ _ _ _ S) as Qq. pose proof Qq as [Nq Q].
  assert (Cl : forall k, cl X h (ids M) k -> cl X' h (ids M) k).
  { intros k [A [B [R D]]]. split; [exact A|]. split; [exact B|]. split; [apply (ring_mono X X' h k ltac:(lia) R)|exact D]. }
  pose proof (s_hole _ _ _ _ _ _ S) as SH. rewrite app_nil_r in SH.
  constructor.
  - apply (s_fresh _ _ _ _ _ _ S).
  - intros i Hi. destruct (s_chain _ _ _ _ _ _ S i Hi) as [t [o [M0 [L1 [L2 [L3 L4]]]]]]. exists t, o. split; [exact M0|]. split; [exact L1|].
    split; [apply (xle_mono X X' _ ltac:(lia)); exact L2|]. split; assumption.
  - exact Qq.
  - apply (s_bal _ _ _ _ _ _ S).
  - intros x y Lx. destruct (Z_lt_dec x X) as [Lx0|Lx0]; [rewrite C1 by exact Lx0; apply (s_cell _ _ _ _ _ _ S x y Lx0)|].
    rewrite C2 by lia.
    assert (H0 : forall i, In i (ids M) -> HS h x y i = 0) by (intros i Hi; unfold HS; apply (cl_HS_right X h (ids M)); [apply SH; exact Hi|lia]).
    assert (Z0 : zsum (HS h x y) (ids M) = 0) by (apply zsum_zero; exact H0).
    assert (Ws : forall i, In i (ids M) -> W h x y i = cn i (ids_le y M) - cn (pt h i) (ids_le y M)).
    { intros i Hi. unfold ids in Hi. apply in_map_iff in Hi. destruct Hi as [[k i'] [E Hk]]. cbn [snd] in E. subst i'.
      assert (Hi : In i (ids M)) by (unfold ids; apply in_map_iff; exists (k, i); split; [reflexivity|exact Hk]).
      destruct (Q i Hi) as [Q1 [Q2 Q3]]. pose proof Q1 as Q1'. unfold ids in Q1'. apply in_map_iff in Q1'. destruct Q1' as [[k' j] [E Hk']]. cbn [snd] in E. subst j.
      rewrite (ids_le_in y M k i K Nq Hk), (ids_le_in y M k' _ K Nq Hk').
      destruct (s_chain _ _ _ _ _ _ S i Hi) as [t [o [M0 [L1 [L2 [L3 L4]]]]]].
      destruct (Hd k i Hk) as [xp [t1 [l [E1 [V1 El]]]]]. rewrite (mi_this _ _ _ _ M0) in E1. injection E1 as <-.
      destruct (Hd k' _ Hk') as [xp' [o1 [l' [E2 [V2 El']]]]]. unfold pt in E2. rewrite (mi_this _ _ _ _ M0), (mi_other _ _ _ _ M0) in E2. injection E2 as <-.
      unfold W. rewrite (mi_this _ _ _ _ M0), V1, El. rewrite V1, El in L2. rewrite (ck_tele X x y (xp :: l) ltac:(lia) false k L2).
      pose proof (mi_vert _ _ _ _ M0) as Mv. rewrite V1, V2, El, vat_cons in Mv. rewrite vat_negb, negb_involutive in Mv. rewrite <- Mv.
      replace (last (xp :: l) k) with k'; [reflexivity|].
      pose proof (mi_line _ _ _ _ M0) as Ml. rewrite El, El' in Ml. apply (f_equal (@rev Z)) in Ml. rewrite rev_involutive in Ml.
      change (rev (k' :: xp' :: l')) with (rev (xp' :: l') ++ [k']) in Ml. pose proof (f_equal (fun l0 => last l0 0) Ml) as Ml2. cbn beta in Ml2. rewrite last_last in Ml2.
      rewrite Ml2. change (last (k :: xp :: l) 0) with (last (xp :: l) 0). apply last_dflt. }
    constructor.
    + exists (ids_le y M), (ids (filter (fun e => negb (fst e <=? y)) M)). split; [|split].
      * unfold ids_le, ids. rewrite <- map_app, <- filter_split by exact K. reflexivity.
      * intros i Hi. apply Ws. unfold ids_le, ids in Hi |- *. rewrite <- map_app, <- filter_split in Hi by exact K. exact Hi.
      * rewrite Z0. lia.
    + intros i Hi. rewrite H0 by exact Hi. lia.
    + lia.
    + intros i Hi Hp. rewrite H0 in Hp by exact Hi. lia.
  - intros i Hi k Hk. rewrite app_nil_r in Hi. apply Cl. exact (SH i Hi k Hk).
Qed.
