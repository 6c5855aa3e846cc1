(* One edge of a column: its bottom, and its top with or without an edge above. *)
From Verif Require Import Base Units Scan90Spec Poly90Spec Poly90Model Poly90Proofs Set90Model PolyFormGaps PolyFormModel PolyFormLemmas PolyFormHeap PolyFormClose PolyFormGood PolyFormFlags PolyFormState PolyFormProofs.
From Coq Require Import Arith.

(* the open edge at the row k has the same cells along it up to column x1 *)
Definition run (Rg : Z -> Z -> bool) (x0 x1 k : Z) : Prop := forall x, x0 <= x <= x1 -> Rg x k = Rg x1 k /\ Rg x (k - 1) = Rg x1 (k - 1).
Definition colP (Rg : Z -> Z -> bool) (X : Z) (f g : Z -> Z) : Prop := forall y, Rg (X - 1) y = (f y =? 1) /\ Rg X y = (g y =? 1).
Definition heads1 (Rg : Z -> Z -> bool) (X : Z) (h : heap) (M : tmap) : Prop := forall k i, In (k, i) M -> exists xp, hv h i false k xp /\ run Rg xp X k.
Definition heads2 (Rg : Z -> Z -> bool) (X : Z) (h : heap) (M : tmap) : Prop := forall k i, In (k, i) M -> exists xp, xp < X /\ hv h i false k xp /\ run Rg xp (X - 1) k.
(* a chain whose last edge may still be moved: a hole has just been joined to it *)
Definition fresh (fr : bool) (X : Z) (h : heap) (nl : Z -> Prop) (k : Z) (i : nat) : Prop :=
  fr = true /\ exists t y0 l, h i = Some t /\ t_vert t = false /\ t_line t = k :: X :: y0 :: l /\ y0 < k /\ forall l, nl l -> k <= l.

(* at a row of an edge *)
Definition curst (Rg : Z -> Z -> bool) (fr : bool) (X : Z) (T : Z -> Z -> Z) (f g : Z -> Z) (p : Z) (bap : bool) (s : pform) : Prop :=
  exists h n M1 M2 it c y0 out, s = mk_pform h n (M1 ++ M2) it (Some c) bap out /\ base f g p M1 M2 /\
    ST Rg fr X T h n (ids M1 ++ c :: ids M2) [] out /\ hv h c true X y0 /\ y0 <= p /\ it_ok it M2 /\ heads1 Rg X h M1 /\ heads2 Rg X h M2 /\
    (fr = false -> forall y, y0 <= y <= p -> f y <> g y /\ g y = g p).
(* at a row where the column is as the column before *)
Definition betw (Rg : Z -> Z -> bool) (fr : bool) (X : Z) (T : Z -> Z -> Z) (f g : Z -> Z) (p : Z) (nl : Z -> Prop) (s : pform) : Prop :=
  exists h n M1 M2 it cur out, s = mk_pform h n (M1 ++ M2) it cur false out /\ base f g p M1 M2 /\ it_ok it M2 /\ heads1 Rg X h M1 /\
    ((cur = None /\ ST Rg fr X T h n (ids M1 ++ ids M2) [] out /\
      forall k i, In (k, i) M2 -> (exists xp, xp < X /\ hv h i false k xp /\ run Rg xp (X - 1) k) \/ fresh fr X h nl k i) \/
     (exists l, nl l /\ forall k, In k (keys M2) -> l <= k) /\ heads2 Rg X h M2 /\
     ((fr = false /\ exists a b, cur = Some a /\ ST Rg fr X T h n (ids M1 ++ ids M2) [a; b] out /\ pend X h (ids M1) (ids M2) a b) \/
      (fr = true /\ exists a b y0 H xp, cur = Some a /\ ST Rg fr X T h n (ids M1 ++ a :: b :: ids M2) [] out /\ pt h a = b /\
         hv h a true X y0 /\ hv h b false H xp /\ y0 <= p /\ H <= p /\ xp < X))).

Lemma heads1_app Rg X h M N : heads1 Rg X h (M ++ N) <-> heads1 Rg X h M /\ heads1 Rg X h N.
Proof. unfold heads1. split; [intros H; split; intros k i Hi; apply H, in_or_app; tauto|]. intros [H1 H2] k i Hi. apply in_app_or in Hi. destruct Hi as [Hi|Hi]; [apply H1|apply H2]; exact Hi. Qed.
Lemma run_one Rg X k : run Rg X X k.
Proof. intros x Hx. replace x with X by lia. tauto. Qed.
Lemma heads1_one Rg X h k i : hv h i false k X -> heads1 Rg X h [(k, i)].
Proof. intros V k' i' [E|[]]. injection E as <- <-. exists X. split; [exact V|apply run_one]. Qed.
Lemma heads1_frame Rg X h h' M : heads1 Rg X h M -> (forall j w k x, In j (ids M) -> hv h j w k x -> hv h' j w k x) -> heads1 Rg X h' M.
Proof. intros H F k i Hi. destruct (H k i Hi) as [xp [V R]]. exists xp. split; [|exact R]. apply F; [apply (in_ids k); exact Hi|exact V]. Qed.
Lemma heads2_frame Rg X h h' M : heads2 Rg X h M -> (forall j w k x, In j (ids M) -> hv h j w k x -> hv h' j w k x) -> heads2 Rg X h' M.
Proof. intros H F k i Hi. destruct (H k i Hi) as [xp [L [V R]]]. exists xp. split; [exact L|]. split; [|exact R]. apply F; [apply (in_ids k); exact Hi|exact V]. Qed.
Lemma heads2_cons Rg X h k i M : heads2 Rg X h ((k, i) :: M) -> heads2 Rg X h M /\ exists xp, xp < X /\ hv h i false k xp /\ run Rg xp (X - 1) k.
Proof. intros H. split; [intros k' i' Hi; apply H; right; exact Hi|]. apply H. left. reflexivity. Qed.
(* the column where it is as the column before *)
Lemma run_next Rg X f g xp k : colP Rg X f g -> f k = g k -> f (k - 1) = g (k - 1) -> run Rg xp (X - 1) k -> run Rg xp X k.
Proof.
  intros C E1 E2 R x Hx. destruct (C k) as [A1 A2]. destruct (C (k - 1)) as [A3 A4]. assert (D : x = X \/ x <= X - 1) by lia. destruct D as [->|D]; [tauto|].
  destruct (R x ltac:(lia)) as [R1 R2]. rewrite R1, R2, A1, A2, A3, A4, E1, E2. tauto.
Qed.
Lemma vert_edge Rg X f g y0 H d : colP Rg X f g -> bin f -> bin g -> y0 < H -> (forall y, y0 <= y < H -> f y <> g y /\ g y = g (H - 1)) -> b2z d = g (H - 1) -> gedge Rg d true H X y0.
Proof.
  intros C Bf Bg L R Hd. split; intros y Hy; [lia|]. destruct (C y) as [-> ->]. destruct (R y Hy) as [R1 R2]. specialize (Bf y). specialize (Bg y). destruct d; cbn [b2z negb] in *; lia.
Qed.
Lemma horiz_edge Rg X f g xp k d : colP Rg X f g -> bin f -> xp < X -> run Rg xp (X - 1) k -> b2z d = f (k - 1) -> bd f k -> gedge Rg d false X k xp.
Proof.
  intros C Bf L R Hd Bd. split; intros x Hx; [lia|]. destruct (R x ltac:(lia)) as [-> ->]. destruct (C k) as [-> _]. destruct (C (k - 1)) as [-> _].
  unfold bd in Bd. pose proof (Bf k). pose proof (Bf (k - 1)). destruct d; cbn [b2z negb] in *; lia.
Qed.
Lemma col_qd Rg X f g y (right up : bool) : colP Rg X f g ->
  (if right then g (if up then y else y - 1) = 1 \/ f (if up then y - 1 else y) = 1 else f (if up then y else y - 1) = 1 \/ g (if up then y - 1 else y) = 1) -> qd Rg X y right up.
Proof. intros C. unfold qd. destruct (C y) as [A1 A2]. destruct (C (y - 1)) as [A3 A4]. destruct right, up; rewrite ?A1, ?A2, ?A3, ?A4; lia. Qed.
(* pushing the top of a vertical edge, pushing X to a horizontal edge, the end of both *)
Lemma push_vert Rg X f g y0 H d : colP Rg X f g -> bin f -> bin g -> is_int X -> y0 < H -> (forall y, y0 <= y < H -> f y <> g y /\ g y = g (H - 1)) -> b2z d = g (H - 1) ->
  g (H - 1) = 1 \/ f H = 1 -> y0 < H /\ gedge Rg d true H X y0 /\ gcorner Rg (negb true) BIG H X y0.
Proof.
  intros C Bf Bg IX L R Hd K. split; [exact L|]. split; [apply (vert_edge Rg X f g); assumption|]. unfold gcorner. cbn [negb].
  replace (X <? BIG) with true by (unfold is_int, BIG in *; lia). replace (H <? y0) with false by lia. apply (col_qd Rg X f g H true false C). exact K.
Qed.
Lemma push_horiz Rg X f g xp k d : colP Rg X f g -> bin f -> is_int k -> xp < X -> run Rg xp (X - 1) k -> b2z d = f (k - 1) -> bd f k ->
  g (k - 1) = 1 \/ f k = 1 -> xp < X /\ gedge Rg d false X k xp /\ gcorner Rg (negb false) BIG X k xp.
Proof.
  intros C Bf Ik L R Hd Bd K. split; [exact L|]. split; [apply (horiz_edge Rg X f g); assumption|]. unfold gcorner. cbn [negb].
  replace (X <? xp) with false by lia. replace (k <? BIG) with true by (unfold is_int, BIG in *; lia). apply (col_qd Rg X f g k false true C). tauto.
Qed.
Lemma meet_good Rg X f g y0 xp H d : colP Rg X f g -> bin f -> bin g -> y0 < H -> xp < X -> (forall y, y0 <= y < H -> f y <> g y /\ g y = g (H - 1)) -> run Rg xp (X - 1) H ->
  b2z d = g (H - 1) -> bd f H -> f (H - 1) = 1 \/ g H = 1 -> gmeet Rg d X y0 H xp.
Proof.
  intros C Bf Bg L1 L2 R Rn Hd Bd K. split; [exact L1|]. split; [exact L2|]. split; [|split].
  - apply gedge_rev, (vert_edge Rg X f g); assumption.
  - apply (horiz_edge Rg X f g); try assumption. destruct (R (H - 1) ltac:(lia)) as [R1 _]. pose proof (Bf (H - 1)). pose proof (Bg (H - 1)). destruct d; cbn [b2z negb] in *; lia.
  - unfold gcorner. replace (X <? xp) with false by lia. replace (H <? y0) with false by lia. apply (col_qd Rg X f g H false false C). exact K.
Qed.
(* the position of an end on the scan line *)
Lemma at_split (u w u' w' : list nat) i : NoDup (u ++ i :: w) -> u ++ i :: w = u' ++ i :: w' -> u' = u.
Proof. intros N E. destruct (nodup_once i u w u' w' N E) as [-> _]. reflexivity. Qed.

Lemma nodup_mid1 (u v : list nat) c j : NoDup (u ++ c :: v) -> In j u \/ In j v -> j <> c.
Proof.
  intros N H ->. apply (cn_nodup c) in N. rewrite cn_app in N. cbn [cn] in N. rewrite Nat.eqb_refl in N. cbn [b2z] in N.
  pose proof (cn_nonneg c u). pose proof (cn_nonneg c v). destruct H as [H|H]; apply cn_in in H; lia.
Qed.
Lemma ST_nodup Rg fr X T h n q pd out : ST Rg fr X T h n q pd out -> NoDup q.
Proof. intros S. apply (s_wfq _ _ _ _ _ _ (T_st _ _ _ _ _ _ _ _ _ S)). Qed.
Lemma rows_up (f g : Z -> Z) y0 p H : y0 <= p -> (forall y, y0 <= y <= p -> f y <> g y /\ g y = g p) -> p < H -> (forall k, p < k < H -> ~ bd f k /\ ~ bd g k) ->
  forall y, y0 <= y < H -> f y <> g y /\ g y = g (H - 1).
Proof.
  intros L0 R L Q y Hy. assert (E : forall z, p <= z < H -> f z = f p /\ g z = g p).
  { intros z Hz. split; symmetry; apply run_const; try lia; intros k Hk; apply Q; lia. }
  destruct (E (H - 1) ltac:(lia)) as [_ ->]. destruct (Z_le_dec y p) as [C|C]; [apply R; lia|]. destruct (E y ltac:(lia)) as [-> ->].
  split; [apply (R p); lia|reflexivity].
Qed.

(* the bottom of an edge, 2018-2061 *)
Lemma bottom_step Rg fr X T f g p nl L s : betw Rg fr X T f g p nl s -> p < L -> nl L -> (forall l, nl l -> L <= l) -> (forall y, p <= y < L -> f y = g y) ->
  f L <> g L -> bin f -> bin g -> is_int X -> is_int L -> colP Rg X f g -> zero_below g -> exists s', edge_bottom fr X L s = Some s' /\ curst Rg fr X T f g L false s'.
Proof.
  intros [h [n [M1 [M2 [it [cur [out [-> [Bs [It [H1 Cs]]]]]]]]]]] Lp NL Nl Eq NeL Bf Bg IX IL CP Zg.
  assert (EqL : f (L - 1) = g (L - 1)) by (apply Eq; lia).
  destruct (base_move f g p (L - 1) M1 M2 Bs) as [N1 [N2 [EM Bs1]]]; [lia| |].
  { intros k Hk. unfold bd. rewrite (Eq (k - 1)), (Eq k) by lia. reflexivity. }
  subst M2.
  assert (HR : forall k i, In (k, i) N1 -> f k = g k /\ f (k - 1) = g (k - 1)).
  { intros k i Hi. assert (K1 : p < k) by (apply (ba_k2 _ _ _ _ _ Bs), (in_keys k i), in_or_app; left; exact Hi).
    destruct (base_le _ _ _ _ _ Bs1) as [F _]. rewrite Forall_forall in F. specialize (F (k, i) ltac:(apply in_or_app; right; exact Hi)). cbn [fst] in F. split; apply Eq; lia. }
  rewrite app_assoc. apply it_app in It. remember (L - 1) as p1 eqn:Ep1. assert (EL : L = p1 + 1) by lia. rewrite EL in NeL |- *.
  assert (Bd : (bd f (p1 + 1) /\ ~ bd g (p1 + 1)) \/ (~ bd f (p1 + 1) /\ bd g (p1 + 1))).
  { unfold bd. replace (p1 + 1 - 1) with p1 by lia. pose proof (Bf p1). pose proof (Bf (p1 + 1)). pose proof (Bg (p1 + 1)). lia. }
  assert (Y : forall y, y <= p -> y <= p1 + 1) by lia. assert (Y' : forall y, y <= p -> y <> p1 + 1) by lia.
  rewrite EL in IL. clear Eq.
  pose proof (base_parity _ _ _ _ _ Bs1 Bg Zg) as Par.
  assert (Gc : forall y, p1 + 1 <= y <= p1 + 1 -> f y <> g y /\ g y = g (p1 + 1)) by (intros y Hy; replace y with (p1 + 1) by lia; split; [exact NeL|reflexivity]).
  assert (Gp : bd f (p1 + 1) -> forall d xp, b2z d = g p1 -> xp < X -> run Rg xp (X - 1) (p1 + 1) -> xp < X /\ gedge Rg d false X (p1 + 1) xp /\ gcorner Rg (negb false) BIG X (p1 + 1) xp).
  { intros Bdf d xp Hd Lx Rn. apply (push_horiz Rg X f g); try assumption; replace (p1 + 1 - 1) with p1 by lia; [congruence|].
    unfold bd in Bdf. replace (p1 + 1 - 1) with p1 in Bdf by lia. pose proof (Bf p1). pose proof (Bf (p1 + 1)). lia. }
  assert (Gq : ~ bd f (p1 + 1) -> qd Rg X (p1 + 1) true true).
  { intros Bdf. apply (col_qd Rg X f g _ _ _ CP). unfold bd in Bdf. replace (p1 + 1 - 1) with p1 in * by lia. pose proof (Bf p1). pose proof (Bf (p1 + 1)). pose proof (Bg (p1 + 1)). lia. }
  destruct Cs as [[-> [S Hd]]|[[l0 [Nl0 Kl0]] [H2 Cs]]].
  - (* no hole waits *)
    assert (HN1 : heads1 Rg X h (M1 ++ N1)).
    { apply heads1_app. split; [exact H1|]. intros k i Hi. destruct (HR k i Hi) as [R1 R2]. destruct (Hd k i) as [[xp [_ [V Rn]]]|[_ [t [y0 [l [A1 [A2 [A3 _]]]]]]]]; [apply in_or_app; left; exact Hi|exists xp; split; [exact V|apply (run_next Rg X f g xp k CP R1 R2 Rn)]|].
      exists X. split; [exists t, (y0 :: l); tauto|apply run_one]. }
    rewrite ids_app in S. rewrite app_assoc, <- ids_app in S.
    destruct Bd as [[Bdf Bdg]|[Bdf Bdg]].
    + destruct (base_head _ _ _ _ _ Bs1 Bdf) as [tl [M2' ->]]. unfold edge_bottom. rewrite (find_found f g p1 tl (M1 ++ N1) M2' it Bs1 It).
      rewrite (next_key f g p1 tl (M1 ++ N1) M2' Bs1), erase_mid by (eauto using base_lt, base_tail).
      cbn [ids map snd] in S. change (map snd M2') with (ids M2') in S.
      assert (HN2 : heads2 Rg X h M2').
      { intros k i Hi. destruct (Hd k i) as [K|[_ [t [y0 [l [A1 [A2 [A3 [A4 A5]]]]]]]]]; [apply in_or_app; right; right; exact Hi|exact K|].
        pose proof (base_tail _ _ _ _ _ _ _ Bs1) as F. rewrite Forall_forall in F. specialize (F _ Hi). cbn [fst] in F. exfalso.
        specialize (A5 L NL). lia. }
      destruct (Hd (p1 + 1) tl) as [[xp [Lxp [V Rn]]]|[Ef [t [y0 [l [A1 [A2 [A3 [A4 A5]]]]]]]]]; [apply in_or_app; right; left; reflexivity| |].
      * destruct (ST_push Rg fr X T h n _ out tl false X (p1 + 1) xp S) as [h' [P1 [P2 [P3 [P4 P5]]]]]; [inl|exact V|reflexivity|exact IX|lia| |].
        { intros _ u w Eu. rewrite (at_split _ _ _ _ _ (ST_nodup _ _ _ _ _ _ _ _ _ S) Eu). apply (Gp Bdf); assumption. }
        rewrite P1. cbn [bind]. eexists. split; [reflexivity|]. exists h', n, (M1 ++ N1), M2', (m_begin M2'), tl, (p1 + 1), out.
        split; [reflexivity|]. split; [apply (base_erase _ _ _ tl); assumption|]. split; [exact P2|]. split; [exact P3|]. split; [lia|].
        split; [apply it_begin; apply base_sort2 in Bs1; apply ksorted_cons in Bs1; apply Bs1|].
        split; [|split; [|intros _; exact Gc]]; [apply (heads1_frame Rg X h h' _ HN1)|apply (heads2_frame Rg X h h' _ HN2)]; intros j w k x Hj; apply P5; try inl; apply (nodup_mid1 _ _ _ j (ST_nodup _ _ _ _ _ _ _ _ _ S)); tauto.
      * destruct (ST_pop Rg fr X T h n _ out tl t (p1 + 1) y0 l Ef S) as [h' [P1 [P2 [P3 P5]]]]; [inl|exact A1|exact A2|exact A3|exact IX|].
        rewrite P1. cbn [bind]. eexists. split; [reflexivity|]. exists h', n, (M1 ++ N1), M2', (m_begin M2'), tl, y0, out.
        split; [reflexivity|]. split; [apply (base_erase _ _ _ tl); assumption|]. split; [exact P2|]. split; [exact P3|]. split; [lia|].
        split; [apply it_begin; apply base_sort2 in Bs1; apply ksorted_cons in Bs1; apply Bs1|].
        split; [|split; [|congruence]]; [apply (heads1_frame Rg X h h' _ HN1)|apply (heads2_frame Rg X h h' _ HN2)]; intros j w k x Hj; apply P5; try inl; apply (nodup_mid1 _ _ _ j (ST_nodup _ _ _ _ _ _ _ _ _ S)); tauto.
    + unfold edge_bottom. rewrite (find_none f g p1 (M1 ++ N1) N2 it Bs1 Bdf).
      assert (HN2 : heads2 Rg X h N2).
      { intros k i Hi. destruct (Hd k i) as [K|[_ [t [y0 [l [A1 [A2 [A3 [A4 A5]]]]]]]]]; [apply in_or_app; right; exact Hi|exact K|].
        pose proof (base_none _ _ _ _ _ Bs1 Bdf) as F. rewrite Forall_forall in F. specialize (F _ Hi). cbn [fst] in F. specialize (A5 L NL). lia. }
      destruct (ST_create Rg fr X T h n (ids (M1 ++ N1)) (ids N2) out (p1 + 1) S IX IL) as [h' [P1 [P2 [P3 [P4 P5]]]]]; [intros _; apply Gq; exact Bdf|].
      rewrite P1. cbn [bind]. rewrite insert_mid by (eauto using base_lt, base_none).
      eexists. split; [reflexivity|]. exists h', (n + 2)%nat, ((M1 ++ N1) ++ [(p1 + 1, (n + 1)%nat)]), N2, it, n, (p1 + 1), out.
      split; [rewrite <- (app_assoc (M1 ++ N1)); reflexivity|]. split; [apply base_insert; assumption|]. split; [rewrite (ids_app (M1 ++ N1)), <- app_assoc; exact P2|].
      split; [exact P3|]. split; [lia|]. split; [exact It|]. split; [|split; [|intros _; exact Gc]].
      * apply heads1_app. split; [|apply heads1_one; exact P4]. apply (heads1_frame Rg X h h' _ HN1). intros j w k x Hj. apply P5. inl.
      * apply (heads2_frame Rg X h h' _ HN2). intros j w k x Hj. apply P5. inl.
  - (* a hole waits: no end below this edge *)
    assert (N1 = []).
    { destruct N1 as [|[k i] N1]; [reflexivity|exfalso]. assert (K : In k (keys (((k, i) :: N1) ++ N2))) by (left; reflexivity). apply Kl0 in K. specialize (Nl l0 Nl0).
      destruct (base_le _ _ _ _ _ Bs1) as [F _]. rewrite Forall_app in F. destruct F as [_ F]. inversion F as [|a b F1 F2]; subst. cbn [fst] in F1. lia. }
    subst N1. rewrite app_nil_r in *. cbn [app] in *.
    destruct Cs as [[-> [a [b [-> [S Pd]]]]]|[-> [a [b [y0 [H [xp [-> [S [Pab [Va [Vb [Ly0 [LH Lxp]]]]]]]]]]]]]].
    + destruct Bd as [[Bdf Bdg]|[Bdf Bdg]].
      * destruct (base_head _ _ _ _ _ Bs1 Bdf) as [tl [M2' ->]]. unfold edge_bottom. rewrite (find_found f g p1 tl M1 M2' it Bs1 It).
        rewrite (next_key f g p1 tl M1 M2' Bs1), erase_mid by (eauto using base_lt, base_tail).
        cbn [ids map snd] in S, Pd. change (map snd M2') with (ids M2') in S, Pd. destruct (heads2_cons _ _ _ _ _ _ H2) as [HN2 [xp [Lxp [V Rn]]]].
        destruct (ST_attach Rg false X T h n (ids M1) tl (ids M2') a b out S Pd) as [h1 [P1 [P2 P3]]]. rewrite P1. cbn [bind].
        destruct (ST_push Rg false X T h1 n _ out tl false X (p1 + 1) xp P2) as [h' [R1 [R2 [R3 [R4 R5]]]]]; [inl|apply P3; exact V|reflexivity|exact IX|lia| |].
        { intros _ u w Eu. rewrite (at_split _ _ _ _ _ (ST_nodup _ _ _ _ _ _ _ _ _ S) Eu). apply (Gp Bdf); assumption. }
        rewrite R1. cbn [bind]. eexists. split; [reflexivity|]. exists h', n, M1, M2', (m_begin M2'), tl, (p1 + 1), out.
        split; [reflexivity|]. split; [apply (base_erase _ _ _ tl); assumption|]. split; [exact R2|]. split; [exact R3|]. split; [lia|].
        split; [apply it_begin; apply base_sort2 in Bs1; apply ksorted_cons in Bs1; apply Bs1|].
        split; [|split; [|intros _; exact Gc]]; [apply (heads1_frame Rg X h h' _ H1)|apply (heads2_frame Rg X h h' _ HN2)]; intros j w k x Hj V'; apply R5; try inl;
          try (apply (nodup_mid1 _ _ _ j (ST_nodup _ _ _ _ _ _ _ _ _ S)); tauto); apply P3; exact V'.
      * unfold edge_bottom. rewrite (find_none f g p1 M1 N2 it Bs1 Bdf).
        destruct (ST_create_hole Rg X T h n (ids M1) (ids N2) a b out (p1 + 1) S Pd IX IL (Gq Bdf)) as [h' [P1 [P2 [P3 [P4 P5]]]]].
        rewrite P1. cbn [bind]. rewrite insert_mid by (eauto using base_lt, base_none).
        eexists. split; [reflexivity|]. exists h', (n + 2)%nat, (M1 ++ [(p1 + 1, (n + 1)%nat)]), N2, it, n, (p1 + 1), out.
        split; [rewrite <- app_assoc; reflexivity|]. split; [apply base_insert; assumption|]. split; [rewrite ids_app, <- app_assoc; exact P2|].
        split; [exact P3|]. split; [lia|]. split; [exact It|]. split; [|split; [|intros _; exact Gc]].
        -- apply heads1_app. split; [|apply heads1_one; exact P4]. apply (heads1_frame Rg X h h' _ H1). intros j w k x Hj. apply P5. inl.
        -- apply (heads2_frame Rg X h h' _ H2). intros j w k x Hj. apply P5. inl.
    + destruct Bd as [[Bdf Bdg]|[Bdf Bdg]].
      * destruct (base_head _ _ _ _ _ Bs1 Bdf) as [tl [M2' ->]]. unfold edge_bottom. rewrite (find_found f g p1 tl M1 M2' it Bs1 It).
        rewrite (next_key f g p1 tl M1 M2' Bs1), erase_mid by (eauto using base_lt, base_tail).
        cbn [ids map snd] in S. change (map snd M2') with (ids M2') in S. destruct (heads2_cons _ _ _ _ _ _ H2) as [HN2 [xk [Lxk [V _]]]].
        destruct (ST_fracture Rg X T h n (ids M1) (ids M2') a b tl out y0 H xp (p1 + 1) xk S IX Pab Va Vb V) as [h' [P1 [P2 [P3 P4]]]]; [lia|lia|apply Y'; exact LH|].
        rewrite P1. cbn [bind]. eexists. split; [reflexivity|]. exists h', n, M1, M2', (m_begin M2'), a, y0, out.
        split; [reflexivity|]. split; [apply (base_erase _ _ _ tl); assumption|]. split; [exact P2|]. split; [exact P3|]. split; [lia|].
        split; [apply it_begin; apply base_sort2 in Bs1; apply ksorted_cons in Bs1; apply Bs1|].
        split; [|split; [|discriminate]]; [apply (heads1_frame Rg X h h' _ H1)|apply (heads2_frame Rg X h h' _ HN2)]; intros j w k x Hj; apply P4; inl.
      * unfold edge_bottom. rewrite (find_none f g p1 M1 N2 it Bs1 Bdf).
        destruct (ST_create_fr Rg X T h n (ids M1) (ids N2) a b out y0 H xp (p1 + 1) S IX IL Pab Va Vb) as [h' [P1 [P2 [P3 [P4 P5]]]]]; [lia|apply not_eq_sym, Y'; exact Ly0|].
        rewrite P1. cbn [bind]. rewrite insert_mid by (eauto using base_lt, base_none).
        eexists. split; [reflexivity|]. exists h', n, (M1 ++ [(p1 + 1, a)]), N2, it, b, H, out.
        split; [rewrite <- app_assoc; reflexivity|]. split; [apply base_insert; assumption|]. split; [rewrite ids_app, <- app_assoc; exact P2|].
        split; [exact P4|]. split; [lia|]. split; [exact It|]. split; [|split; [|discriminate]].
        -- apply heads1_app. split; [|apply heads1_one; exact P3]. apply (heads1_frame Rg X h h' _ H1). intros j w k x Hj. apply P5. inl.
        -- apply (heads2_frame Rg X h h' _ H2). intros j w k x Hj. apply P5. inl.
Qed.

(* the top of an edge that meets the bottom of the next one, 2063-2101 *)
Lemma meet_step Rg fr X T f g p bap H s (trailing : bool) : curst Rg fr X T f g p bap s -> p < H -> (forall k, p < k < H -> ~ bd f k /\ ~ bd g k) ->
  bd f H -> bd g H -> bin g -> zero_below g -> g (H - 1) = (if trailing then 0 else 1) -> is_int X -> is_int H -> f H <> g H -> bin f -> colP Rg X f g ->
  exists s', edge_meet fr trailing X H s = Some s' /\ curst Rg fr X T f g H true s'.
Proof.
  intros [h [n [M1 [M2 [it [c [y0 [out [-> [Bs0 [S [Vc [Ly0 [It [H1 [H2 Gc]]]]]]]]]]]]]]]] Lp Q Bdf Bdg Bg Zg Gv IX IH NeH Bf CP.
  assert (Gn : forall y, H <= y <= H -> f y <> g y /\ g y = g H) by (intros y Hy; replace y with H by lia; split; [exact NeH|reflexivity]).
  assert (Bs : base f g (H - 1) M1 M2) by (apply (base_quiet f g p); [exact Bs0|lia|intros k Hk; apply Q; lia]). clear Bs0.
  assert (Ny : forall y, y <= p -> y <> H) by lia. assert (Ny' : forall y, y <= p -> y < H) by lia.
  assert (Gr : fr = false -> forall y, y0 <= y < H -> f y <> g y /\ g y = g (H - 1)) by (intros Ef; apply (rows_up f g y0 p H Ly0 (Gc Ef) Lp Q)).
  remember (H - 1) as p1 eqn:Ep1. assert (EH : H = p1 + 1) by lia. rewrite EH in *. clear EH Q.
  assert (Ep : p1 + 1 - 1 = p1) by lia. pose proof (base_parity _ _ _ _ _ Bs Bg Zg) as Par.
  destruct (base_head _ _ _ _ _ Bs Bdf) as [tl [M2' ->]]. destruct (heads2_cons _ _ _ _ _ _ H2) as [HN2 [xp [Lxp [V Rn]]]].
  cbn [ids map snd] in S. change (map snd M2') with (ids M2') in S.
  assert (Its : it_ok (m_begin M2') M2') by (apply it_begin; apply base_sort2 in Bs; apply ksorted_cons in Bs; apply Bs).
  unfold edge_meet. cbn [bind]. rewrite (find_found f g p1 tl M1 M2' it Bs It). cbn [bind].
  rewrite (next_key f g p1 tl M1 M2' Bs). pose proof (base_lt _ _ _ _ _ Bs) as F1. pose proof (base_tail _ _ _ _ _ _ _ Bs) as F2.
  pose proof (ST_nodup _ _ _ _ _ _ _ _ _ S) as Nq.
  assert (Dj : forall j, In j (ids M1 ++ ids M2') -> j <> c /\ j <> tl /\ c <> tl).
  { intros j Hj. split; [|split].
    - apply (nodup_mid1 _ _ _ j Nq). rewrite in_app_iff in Hj. cbn [In]. tauto.
    - replace (ids M1 ++ c :: tl :: ids M2') with ((ids M1 ++ [c]) ++ tl :: ids M2') in Nq by (apps; reflexivity). apply (nodup_mid1 _ _ _ j Nq).
      rewrite in_app_iff in Hj |- *. cbn [In]. tauto.
    - replace (ids M1 ++ c :: tl :: ids M2') with ((ids M1 ++ [c]) ++ tl :: ids M2') in Nq by (apps; reflexivity). apply (nodup_mid1 _ _ _ c Nq).
      rewrite in_app_iff. cbn [In]. tauto. }
  assert (Dct : c <> tl).
  { replace (ids M1 ++ c :: tl :: ids M2') with ((ids M1 ++ [c]) ++ tl :: ids M2') in Nq by (apps; reflexivity). apply (nodup_mid1 _ _ _ c Nq). rewrite in_app_iff. cbn [In]. tauto. }
  destruct trailing.
  - assert (Od : odd_len (ids M1) = false).
    { pose proof (base_parity _ _ _ _ _ Bs Bg Zg) as K. rewrite Gv in K. destruct (odd_len (ids M1)); [discriminate K|reflexivity]. }
    destruct (ST_close Rg fr X T h n (ids M1) (ids M2') c tl out y0 (p1 + 1) xp S Od Vc V) as [h1 [out1 [P1 [P2 P3]]]]; [apply Ny; exact Ly0|lia| |].
    { intros Ef. apply (meet_good Rg X f g); try assumption; [apply Ny'; exact Ly0|rewrite Ep; exact (Gr Ef)|rewrite Ep; exact (eq_sym Gv)|rewrite Ep; left].
      destruct (Gr Ef p1) as [K _]; [specialize (Ny' y0 Ly0); lia|]. pose proof (Bf p1). lia. }
    rewrite P1. cbn [bind]. destruct (ST_create Rg fr X T h1 n (ids M1) (ids M2') out1 (p1 + 1) P2 IX IH) as [h2 [R1 [R2 [R3 [R4 R5]]]]].
    { intros _. apply (col_qd Rg X f g _ _ _ CP). left. unfold bd in Bdg. rewrite Ep in Bdg. pose proof (Bg (p1 + 1)). lia. }
    rewrite R1. cbn [bind]. rewrite assign_mid by assumption. eexists. split; [reflexivity|].
    exists h2, (n + 2)%nat, (M1 ++ [(p1 + 1, (n + 1)%nat)]), M2', (m_begin M2'), n, (p1 + 1), out1. split; [rewrite <- app_assoc; reflexivity|].
    split; [apply (base_assign _ _ _ tl); assumption|]. split; [rewrite ids_app, <- app_assoc; exact R2|]. split; [exact R3|]. split; [lia|]. split; [exact Its|]. split; [|split; [|intros _; exact Gn]].
    + apply heads1_app. split; [|apply heads1_one; exact R4]. apply (heads1_frame Rg X h h2 _ H1). intros j w k x Hj V'. apply R5; [inl|]. apply P3; [inl|exact V'].
    + apply (heads2_frame Rg X h h2 _ HN2). intros j w k x Hj V'. apply R5; [inl|]. apply P3; [inl|exact V'].
  - destruct (ST_push Rg fr X T h n _ out c true (p1 + 1) X y0 S) as [h1 [P1 [P2 [P3 [P4 P5]]]]]; [inl|exact Vc|reflexivity|exact IH|apply not_eq_sym, Ny; exact Ly0| |].
    { intros Ef u w Eu. rewrite (at_split _ _ _ _ _ Nq Eu). apply (push_vert Rg X f g); try assumption; [apply Ny'; exact Ly0|rewrite Ep; exact (Gr Ef)|rewrite Ep; exact Par|rewrite Ep; left; exact Gv]. }
    rewrite P1. cbn [bind].
    destruct (ST_push Rg fr X T h1 n _ out tl false X (p1 + 1) xp P2) as [h2 [R1 [R2 [R3 [R4 R5]]]]]; [inl|apply P5; [inl|congruence|exact V]|reflexivity|exact IX|lia| |].
    { intros Ef u w Eu. replace (ids M1 ++ c :: tl :: ids M2') with ((ids M1 ++ [c]) ++ tl :: ids M2') in Nq, Eu by (apps; reflexivity). rewrite (at_split _ _ _ _ _ Nq Eu), odd_len_app.
      apply (push_horiz Rg X f g); try assumption; rewrite Ep; [|left; exact Gv]. destruct (Gr Ef p1) as [K _]; [specialize (Ny' y0 Ly0); lia|]. pose proof (Bf p1). change (odd_len [c]) with true. rewrite xorb_true_r. destruct (odd_len (ids M1)); cbn [negb b2z] in *; lia. }
    rewrite R1. cbn [bind]. rewrite assign_mid by assumption. eexists. split; [reflexivity|].
    exists h2, n, (M1 ++ [(p1 + 1, c)]), M2', (m_begin M2'), tl, (p1 + 1), out. split; [rewrite <- app_assoc; reflexivity|].
    split; [apply (base_assign _ _ _ tl); assumption|]. split; [rewrite ids_app, <- app_assoc; exact R2|]. split; [exact R3|]. split; [lia|]. split; [exact Its|]. split; [|split; [|intros _; exact Gn]].
    + apply heads1_app. split; [|apply heads1_one; apply R5; [inl|congruence|exact P3]].
      apply (heads1_frame Rg X h h2 _ H1). intros j w k x Hj V'. destruct (Dj j) as [D1 [D2 D3]]; [inl|]. apply R5; [inl|exact D2|]. apply P5; [inl|exact D1|exact V'].
    + apply (heads2_frame Rg X h h2 _ HN2). intros j w k x Hj V'. destruct (Dj j) as [D1 [D2 D3]]; [inl|]. apply R5; [inl|exact D2|]. apply P5; [inl|exact D1|exact V'].
Qed.

(* the top of an edge, 2102-2138 *)
Lemma top_step Rg fr X T f g p bap H s (trailing have : bool) lefty nexty (nl : Z -> Prop) : curst Rg fr X T f g p bap s -> p < H ->
  (forall k, p < k < H -> ~ bd f k /\ ~ bd g k) -> f (H - 1) <> g (H - 1) -> f H = g H ->
  bin f -> bin g -> zero_below g -> zero_above f -> g (H - 1) = (if trailing then 0 else 1) -> is_int X -> is_int H -> colP Rg X f g ->
  (trailing = false -> have = false -> forall k, H < k -> (forall j, H < j < k -> ~ bd f j) -> f H = 1 -> forall l, nl l -> k <= l) ->
  (trailing = false -> have = true -> forall k, is_int k -> k < lefty -> k < nexty -> forall l, nl l -> k <= l) ->
  (trailing = false -> have = true -> forall k, is_int k -> k < lefty /\ k < nexty \/ exists l, nl l /\ l <= k) ->
  exists s', edge_top fr trailing have X H lefty nexty s = Some s' /\ betw Rg fr X T f g H nl s'.
Proof.
  intros [h [n [M1 [M2 [it [c [y0 [out [-> [Bs0 [S [Vc [Ly0 [It [H1 [H2 Gc]]]]]]]]]]]]]]]] Lp Q Ne Eq Bf Bg Zg Zf Gv IX IH CP NlA NlB NlC.
  assert (Bs : base f g (H - 1) M1 M2) by (apply (base_quiet f g p); [exact Bs0|lia|intros k Hk; apply Q; lia]). clear Bs0.
  assert (Ny : forall y, y <= p -> y <> H) by lia. assert (Ny' : forall y, y <= p -> y <= H) by lia. assert (Nyl : y0 < H) by lia.
  assert (Gr : fr = false -> forall y, y0 <= y < H -> f y <> g y /\ g y = g (H - 1)) by (intros Ef; apply (rows_up f g y0 p H Ly0 (Gc Ef) Lp Q)).
  remember (H - 1) as p1 eqn:Ep1. assert (EH : H = p1 + 1) by lia. rewrite EH in *. clear EH Q.
  assert (Ep : p1 + 1 - 1 = p1) by lia. pose proof (base_parity _ _ _ _ _ Bs Bg Zg) as Par0. pose proof (ST_nodup _ _ _ _ _ _ _ _ _ S) as Nq0.
  assert (Bd : (bd f (p1 + 1) /\ ~ bd g (p1 + 1)) \/ (~ bd f (p1 + 1) /\ bd g (p1 + 1))).
  { unfold bd. replace (p1 + 1 - 1) with p1 by lia. pose proof (Bf p1). pose proof (Bf (p1 + 1)). pose proof (Bg p1). lia. }
  pose proof (base_lt _ _ _ _ _ Bs) as F1. unfold edge_top. cbn [bind].
  destruct Bd as [[Bdf Bdg]|[Bdf Bdg]].
  2:{ rewrite (find_none f g p1 M1 M2 it Bs Bdf). pose proof (base_none _ _ _ _ _ Bs Bdf) as F2.
      destruct (ST_push Rg fr X T h n _ out c true (p1 + 1) X y0 S) as [h1 [P1 [P2 [P3 [P4 P5]]]]]; [inl|exact Vc|reflexivity|exact IH|apply not_eq_sym, Ny; exact Ly0| |].
      { intros Ef u w Eu. rewrite (at_split _ _ _ _ _ Nq0 Eu). apply (push_vert Rg X f g); try assumption; [rewrite Ep; exact (Gr Ef)|rewrite Ep; exact Par0|rewrite Ep]. unfold bd in Bdf. rewrite Ep in Bdf. pose proof (Bf p1). pose proof (Bg p1). pose proof (Bf (p1 + 1)). lia. }
      rewrite P1. cbn [bind]. rewrite insert_mid by assumption. eexists. split; [reflexivity|].
      pose proof (ST_nodup _ _ _ _ _ _ _ _ _ S) as Nq.
      exists h1, n, (M1 ++ [(p1 + 1, c)]), M2, it, None, out. split; [rewrite <- app_assoc; reflexivity|]. split; [apply base_insert; assumption|]. split; [exact It|]. split.
      - apply heads1_app. split; [|apply heads1_one; exact P3]. apply (heads1_frame Rg X h h1 _ H1). intros j w k x Hj. apply P5; [inl|apply (nodup_mid1 _ _ _ j Nq); tauto].
      - left. split; [reflexivity|]. split; [rewrite ids_app, <- app_assoc; exact P2|]. intros k i Hi. left. destruct (H2 k i Hi) as [xp [Lxp [V Rn]]]. exists xp. split; [exact Lxp|]. split; [|exact Rn].
        apply in_ids in Hi. apply P5; [inl|apply (nodup_mid1 _ _ _ i Nq); tauto|exact V]. }
  destruct (base_head _ _ _ _ _ Bs Bdf) as [tl [M2' ->]]. destruct (heads2_cons _ _ _ _ _ _ H2) as [HN2 [xp [Lxp [V Rn]]]].
  cbn [ids map snd] in S. change (map snd M2') with (ids M2') in S.
  assert (Its : it_ok (m_begin M2') M2') by (apply it_begin; apply base_sort2 in Bs; apply ksorted_cons in Bs; apply Bs).
  rewrite (find_found f g p1 tl M1 M2' it Bs It). rewrite (next_key f g p1 tl M1 M2' Bs). pose proof (base_tail _ _ _ _ _ _ _ Bs) as F2.
  pose proof (base_erase _ _ _ _ _ _ Bs Bdg) as Bs'. pose proof (base_parity _ _ _ _ _ Bs Bg Zg) as Par. rewrite Gv in Par.
  assert (Gm : fr = false -> gmeet Rg (odd_len (ids M1)) X y0 (p1 + 1) xp).
  { intros Ef. apply (meet_good Rg X f g); try assumption; [rewrite Ep; exact (Gr Ef)|rewrite Ep; exact Par0|rewrite Ep]. unfold bd in Bdf. rewrite Ep in Bdf. pose proof (Bf p1). pose proof (Bg p1). pose proof (Bf (p1 + 1)). lia. }
  assert (Nyc : y0 <> p1 + 1) by (apply Ny; exact Ly0).
  assert (Closed : forall h1 out1, ST Rg fr X T h1 n (ids M1 ++ ids M2') [] out1 -> (forall j w k x, In j (ids M1 ++ ids M2') -> hv h j w k x -> hv h1 j w k x) ->
    betw Rg fr X T f g (p1 + 1) nl (mk_pform h1 n (m_erase (p1 + 1) (M1 ++ (p1 + 1, tl) :: M2')) (m_begin M2') None false out1)).
  { intros h1 out1 S1 V1. rewrite erase_mid by assumption. exists h1, n, M1, M2', (m_begin M2'), None, out1. split; [reflexivity|]. split; [exact Bs'|]. split; [exact Its|].
    split; [apply (heads1_frame Rg X h h1 _ H1); intros j w k x Hj; apply V1; inl|]. left. split; [reflexivity|]. split; [exact S1|]. intros k i Hi. left.
    destruct (HN2 k i Hi) as [x [Lx [Vx Rx]]]. exists x. split; [exact Lx|]. split; [|exact Rx]. apply in_ids in Hi. apply V1; [inl|exact Vx]. }
  destruct trailing; cbn [negb].
  - assert (Od : odd_len (ids M1) = false) by (destruct (odd_len (ids M1)); [discriminate Par|reflexivity]).
    destruct (ST_close Rg fr X T h n (ids M1) (ids M2') c tl out y0 (p1 + 1) xp S Od Vc V Nyc) as [h1 [out1 [P1 [P2 P3]]]]; [lia|intros Ef; specialize (Gm Ef); rewrite Od in Gm; exact Gm|].
    rewrite P1. cbn [bind]. eexists. split; [reflexivity|]. apply Closed; assumption.
  - assert (Od : odd_len (ids M1) = true) by (destruct (odd_len (ids M1)); [reflexivity|discriminate Par]).
    destruct (Nat.eq_dec (pt h c) tl) as [Pct|Nct].
    2:{ destruct (ST_join Rg fr X T h n (ids M1) (ids M2') c tl out y0 (p1 + 1) xp true S Nct Vc V Nyc) as [h1 [P1 [P2 P3]]]; [lia|exact Gm|].
        rewrite P1. cbn [bind]. eexists. split; [reflexivity|]. apply Closed; assumption. }
    rewrite (ST_hole_fr Rg fr X T h n (ids M1) (ids M2') c tl out S Pct). cbn [bind].
    (* the next end above *)
    assert (FH : f (p1 + 1) = 1).
    { unfold bd in Bdf. replace (p1 + 1 - 1) with p1 in Bdf by lia. pose proof (Bf p1). pose proof (Bf (p1 + 1)). lia. }
    assert (NM : exists k2 t2 M3, M2' = (k2, t2) :: M3).
    { destruct M2' as [|[k2 t2] M3]; [|exists k2, t2, M3; reflexivity]. exfalso. destruct Zf as [b Zf].
      assert (Kf : f (p1 + 1) = f (Z.max b (p1 + 1))).
      { apply run_const; [lia|]. intros k Hk C. assert (Kk : In k (keys [])) by (apply (ba_k2 _ _ _ _ _ Bs'); split; [lia|exact C]). destruct Kk. }
      rewrite (Zf (Z.max b (p1 + 1))) in Kf by lia. lia. }
    destruct NM as [k2 [t2 [M3 EM]]]. subst M2'. cbn [m_begin]. destruct (heads2_cons _ _ _ _ _ _ HN2) as [HN3 [x2 [Lx2 [V2 _]]]].
    assert (K2 : p1 + 1 < k2 /\ forall j, p1 + 1 < j < k2 -> ~ bd f j).
    { split; [apply (ba_k2 _ _ _ _ _ Bs'); left; reflexivity|]. intros j Hj C. assert (K : In j (keys ((k2, t2) :: M3))) by (apply (ba_k2 _ _ _ _ _ Bs'); split; [lia|exact C]).
      apply base_tail in Bs'. cbn [keys map fst In] in K. destruct K as [K|K]; [lia|]. apply keys_in in K. destruct K as [i K]. rewrite Forall_forall in Bs'. specialize (Bs' _ K). cbn [fst] in Bs'. lia. }
    destruct K2 as [K2 K2'].
    assert (Ik2 : is_int k2).
    { destruct (s_chain _ _ _ _ _ _ (T_st _ _ _ _ _ _ _ _ _ S) t2) as [t [o [M [_ [_ [_ L4]]]]]]; [cbn [ids map snd]; inl|].
      destruct V2 as [t' [l [E1 [_ E2]]]]. rewrite (mi_this _ _ _ _ M) in E1. injection E1 as <-. rewrite E2 in L4. inversion L4; assumption. }
    cbn [ids map snd] in S. change (map snd M3) with (ids M3) in S.
    destruct (negb have || (k2 <? lefty) && (k2 <? nexty)) eqn:Cond.
    + assert (Nlk : forall l, nl l -> k2 <= l).
      { destruct have; cbn [negb orb] in Cond; [apply (NlB eq_refl eq_refl k2 Ik2); lia|]. intros l Hl. apply (NlA eq_refl eq_refl k2 K2 K2' FH l Hl). }
      assert (Fd : m_find k2 (M1 ++ (p1 + 1, tl) :: (k2, t2) :: M3) = Some t2).
      { replace (M1 ++ (p1 + 1, tl) :: (k2, t2) :: M3) with ((M1 ++ [(p1 + 1, tl)]) ++ (k2, t2) :: M3) by (apps; reflexivity).
        apply find_mid. apply Forall_app. split; [revert F1; apply Forall_impl; intros; lia|constructor; [cbn [fst]; lia|constructor]]. }
      cbn [bind]. rewrite Fd. cbn [bind].
      destruct fr.
      * destruct (ST_fracture Rg X T h n (ids M1) (ids M3) c tl t2 out y0 (p1 + 1) xp k2 x2 S IX Pct Vc V V2) as [h2 [P1 [P2 [P3 P4]]]]; [lia|lia|lia|].
        rewrite P1. cbn [bind].
        destruct (ST_push Rg true X T h2 n _ out c true k2 X y0 P2) as [h3 [R1 [R2 [R3 [R4 R5]]]]]; [inl|exact P3|reflexivity|exact Ik2|specialize (Ny' y0 Ly0); lia|discriminate|].
        rewrite R1. cbn [bind]. eexists. split; [reflexivity|].
        assert (Em : m_erase (p1 + 1) (m_assign k2 c (M1 ++ (p1 + 1, tl) :: (k2, t2) :: M3)) = M1 ++ (k2, c) :: M3).
        { replace (M1 ++ (p1 + 1, tl) :: (k2, t2) :: M3) with ((M1 ++ [(p1 + 1, tl)]) ++ (k2, t2) :: M3) by (apps; reflexivity). rewrite assign_mid.
          - apps. apply erase_mid; [exact F1|]. inversion F2 as [|e l Q1 Q2]; subst. constructor; [exact Q1|exact Q2].
          - apply Forall_app. split; [revert F1; apply Forall_impl; intros; lia|constructor; [cbn [fst]; lia|constructor]].
          - apply base_tail in Bs'. exact Bs'. }
        rewrite Em. pose proof (ST_nodup _ _ _ _ _ _ _ _ _ P2) as Nq.
        exists h3, n, M1, ((k2, c) :: M3), (Some k2), None, out. split; [reflexivity|]. split; [|split; [|split]].
        -- destruct Bs' as [A1 A2 A3]. constructor; [|exact A2|exact A3]. apply ksorted_app in A1. destruct A1 as [Q1 [Q2 Q3]]. apply ksorted_app. split; [exact Q1|].
           apply ksorted_cons in Q2. split; [apply ksorted_cons; exact Q2|]. intros a b Ha [<-|Hb]; [exact (Q3 a (k2, t2) Ha (or_introl eq_refl))|apply Q3; [exact Ha|right; exact Hb]].
        -- cbn [m_begin it_ok] in Its |- *. inversion Its as [|e l Q1 Q2]; subst. constructor; [exact Q1|exact Q2].
        -- apply (heads1_frame Rg X h h3 _ H1). intros j w k x Hj V'. apply R5; [inl|apply (nodup_mid1 _ _ _ j Nq); tauto|]. apply P4; [inl|exact V'].
        -- left. split; [reflexivity|]. split; [exact R2|]. intros k i [E|Hi].
           ++ injection E as <- <-. right. split; [reflexivity|]. destruct R3 as [t [l [E1 [E2 E3]]]]. 
              assert (V3 : exists l', l = y0 :: l').
              { destruct P3 as [tc [lc [C1 [C2 C3]]]]. unfold push_coord in R1. rewrite C1 in R1. cbn [bind] in R1.
                destruct (h2 (t_other tc)) as [oc|] eqn:Eo; [|discriminate R1]. cbn [bind] in R1. rewrite C3 in R1.
                replace (k2 =? y0) with false in R1 by (specialize (Ny' y0 Ly0); lia). injection R1 as <-. rewrite hset_eq in E1. injection E1 as <-. cbn [t_line] in E3. injection E3 as <-. exists lc. reflexivity. }
              destruct V3 as [l' ->]. exists t, y0, l'. split; [exact E1|]. split; [exact E2|]. split; [exact E3|]. split; [specialize (Ny' y0 Ly0); lia|exact Nlk].
           ++ left. destruct (HN3 k i Hi) as [x [Lx [Vx Rx]]]. exists x. split; [exact Lx|]. split; [|exact Rx]. apply in_ids in Hi. apply R5; [inl|apply (nodup_mid1 _ _ _ i Nq); tauto|]. apply P4; [inl|exact Vx].
      * destruct (ST_hole Rg X T h n (ids M1) (t2 :: ids M3) c tl out y0 (p1 + 1) xp S Od Pct Vc V Nyc) as [_ [S2 Pd]]; [lia|specialize (Gm eq_refl); rewrite Od in Gm; exact Gm|].
        destruct (ST_attach Rg false X T h n (ids M1) t2 (ids M3) c tl out S2 Pd) as [h2 [P1 [P2 P3]]].
        rewrite P1. cbn [bind]. eexists. split; [reflexivity|]. apply Closed; [exact P2|]. intros j w k x _. apply P3.
    + assert (Have : have = true) by (destruct have; [reflexivity|discriminate Cond]). subst have. cbn [negb orb] in Cond.
      assert (Lim : exists l, nl l /\ forall k, In k (keys ((k2, t2) :: M3)) -> l <= k).
      { destruct (NlC eq_refl eq_refl k2 Ik2) as [K|[l [Hl Ll]]]; [lia|]. exists l. split; [exact Hl|]. intros k [<-|K]; [exact Ll|]. apply keys_in in K. destruct K as [i K].
        apply base_tail in Bs'. rewrite Forall_forall in Bs'. specialize (Bs' _ K). cbn [fst] in Bs'. lia. }
      eexists. split; [reflexivity|]. rewrite erase_mid by assumption.
      exists h, n, M1, ((k2, t2) :: M3), (Some k2), (Some c), out. split; [reflexivity|]. split; [exact Bs'|]. split; [exact Its|]. split; [exact H1|]. right.
      split; [exact Lim|]. split; [exact HN2|]. destruct fr.
      * right. split; [reflexivity|]. exists c, tl, y0, (p1 + 1), xp. split; [reflexivity|]. split; [exact S|]. split; [exact Pct|]. split; [exact Vc|]. split; [exact V|].
        split; [apply Ny'; exact Ly0|]. split; [lia|exact Lxp].
      * left. split; [reflexivity|]. exists c, tl. split; [reflexivity|].
        destruct (ST_hole Rg X T h n (ids M1) (t2 :: ids M3) c tl out y0 (p1 + 1) xp S Od Pct Vc V Nyc) as [_ [S2 Pd]]; [lia|specialize (Gm eq_refl); rewrite Od in Gm; exact Gm|]. split; assumption.
Qed.
