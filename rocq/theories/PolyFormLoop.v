(* All edges of a column. *)
From Verif Require Import Base Units Scan90Spec Poly90Spec Poly90Model Poly90Proofs Set90Model PolyFormGaps PolyFormModel PolyFormLemmas PolyFormHeap PolyFormClose PolyFormGood PolyFormFlags PolyFormState PolyFormProofs PolyFormSteps.
From Coq Require Import Arith.

Definition okst (Rg : Z -> Z -> bool) (fr : bool) (X : Z) (T : Z -> Z -> Z) (f g : Z -> Z) (p : Z) (A B : list edge) (s : pform) : Prop :=
  (betw Rg fr X T f g p (lows A B) s /\ forall l, lows A B l -> p < l) \/ (curst Rg fr X T f g p true s /\ lows A B p).

Lemma low_in P a b O : lows ((a, b) :: P) O a.
Proof. exists (a, b). split; [left; reflexivity|reflexivity]. Qed.
Lemma lows_cons e P O l : lows P O l -> lows (e :: P) O l.
Proof. intros [e' [H E]]. exists e'. split; [right; exact H|exact E]. Qed.

Lemma one_step Rg fr X T f g p (trailing : bool) L H P O s : bin f -> bin g -> zero_below g -> zero_above f -> is_int X -> colP Rg X f g ->
  okst Rg fr X T f g p ((L, H) :: P) O s ->
  rem_ok p (if trailing then g else f) (if trailing then f else g) ((L, H) :: P) O -> (forall e, In e O -> L <= fst e) ->
  exists s1, one_edge fr X (L, H) trailing (if trailing then O else P) (if trailing then P else O) s = Some s1 /\
    okst Rg fr X T f g H P O s1 /\ rem_ok H (if trailing then g else f) (if trailing then f else g) P O.
Proof.
  intros Bf Bg Zg Zf IX CP Ok R LO.
  destruct (edge_step p (if trailing then g else f) (if trailing then f else g) L H P O) as [E1 [E2 [E3 [E4 [E5 [E6 [E7 [E8 [E9 [E10 E11]]]]]]]]]];
    [destruct trailing; assumption|destruct trailing; assumption|exact R|exact LO|].
  assert (Rows : forall y, L <= y < H -> f y <> g y /\ g y = (if trailing then 0 else 1)).
  { intros y Hy. specialize (E6 y Hy). destruct trailing; lia. }
  assert (Eq : forall y, p <= y < L -> f y = g y) by (intros y Hy; specialize (E5 y Hy); destruct trailing; congruence).
  assert (Qt : forall k, L < k < H -> ~ bd f k /\ ~ bd g k).
  { intros k Hk. pose proof (E6 (k - 1) ltac:(lia)). pose proof (E6 k ltac:(lia)). unfold bd. destruct trailing; lia. }
  assert (AllL : forall l, lows ((L, H) :: P) O l -> L <= l).
  { intros l [e [He <-]]. cbn [app In] in He. rewrite in_app_iff in He. destruct He as [<-|[He|He]]; [cbn [fst]; lia|specialize (E8 e He); lia|apply LO; exact He]. }
  assert (Bot : exists s' bap, edge_bottom fr X L s = Some s' /\ curst Rg fr X T f g L bap s').
  { destruct Ok as [[Bt Lp]|[Cu Lp]].
    - destruct (bottom_step Rg fr X T f g p (lows ((L, H) :: P) O) L s Bt) as [s' [K1 K2]]; [apply Lp, low_in|apply low_in|exact AllL|exact Eq|apply Rows; lia|exact Bf|exact Bg|exact IX|exact E3|exact CP|exact Zg|].
      exists s', false. tauto.
    - apply AllL in Lp. replace L with p in * by lia. destruct Cu as [h [n [M1 [M2 [it [c [y0 [out [-> K]]]]]]]]]. unfold edge_bottom.
      eexists. exists true. split; [reflexivity|]. exists h, n, M1, M2, it, c, y0, out. split; [reflexivity|exact K]. }
  destruct Bot as [s0 [bap [Eb Cu]]]. unfold one_edge. cbn [fst snd]. rewrite Eb. cbn [bind].
  replace (if trailing then (if trailing then O else P) else (if trailing then P else O)) with O by (destruct trailing; reflexivity).
  destruct E10 as [E10|E10].
  - (* top *)
    assert (NM : match O with [] => false | _ => true end && (H =? low_of O) = false).
    { destruct O as [|[a b] O']; [reflexivity|]. cbn [low_of fst]. destruct (Z.eqb_spec H a) as [->|D]; [|reflexivity]. exfalso.
      assert (C : (if trailing then g else f) a = 1 /\ (if trailing then f else g) a = 0) by (apply E11; exists (a, b), O'; split; reflexivity). lia. }
    rewrite NM.
    destruct (top_step Rg fr X T f g L bap H s0 trailing (match O with [] => false | _ => true end) (low_of (if trailing then O else P)) (low_of O) (lows P O) Cu) as [s1 [K1 K2]];
      [lia|exact Qt|apply Rows; lia|destruct trailing; congruence|exact Bf|exact Bg|exact Zg|exact Zf|apply Rows; lia|exact IX|exact E4|exact CP| | | |].
    + intros Et Hv k Hk Nb F1 l [e [He <-]]. subst trailing. assert (O = []) by (destruct O; [reflexivity|discriminate Hv]). subst O. rewrite app_nil_r in He.
      pose proof (E8 e He) as Le. destruct (Z_le_dec k (fst e)) as [C|C]; [exact C|exfalso].
      assert (f H = f (fst e)) by (apply run_const; [lia|intros j Hj; apply Nb; lia]).
      destruct E7 as [EP [_ [RP _]]]. destruct (edges_lows _ _ _ EP He) as [_ [K _]]. assert (f (fst e) = 0 /\ g (fst e) = 1) by (apply RP; [lia|exists e; split; [exact He|lia]]). lia.
    + intros Et Hv k Ik K1 K2 l [e [He <-]]. subst trailing. destruct E7 as [EP [EO _]]. rewrite in_app_iff in He. destruct He as [He|He].
      * destruct P as [|[a b] P']; [destruct He|]. cbn [low_of fst] in K1. pose proof (edges_head _ _ _ _ _ EP He). lia.
      * destruct O as [|[a b] O']; [destruct He|]. cbn [low_of fst] in K2. pose proof (edges_head _ _ _ _ _ EO He). lia.
    + intros Et Hv k Ik. subst trailing. destruct E7 as [EP [EO _]]. destruct O as [|[a b] O']; [discriminate Hv|].
      assert (a < INT_MAX) by (destruct (edges_lows _ _ (a, b) EO (or_introl eq_refl)) as [_ [Q1 [_ Q2]]]; unfold is_int in Q2; cbn [fst snd] in *; lia).
      destruct (Z_le_dec a k) as [C|C]; [right; exists a; split; [|exact C]; exists (a, b); split; [apply in_or_app; right; left; reflexivity|reflexivity]|].
      destruct P as [|[a' b'] P']; cbn [low_of fst]; [left; lia|]. destruct (Z_le_dec a' k) as [C'|C']; [right; exists a'; split; [apply low_in|exact C']|left; lia].
    + exists s1. split; [exact K1|]. split; [|exact E7]. left. split; [exact K2|]. intros l [e [He <-]]. rewrite in_app_iff in He. destruct He as [He|He]; [apply E8; exact He|].
      pose proof (E9 e He). destruct (Z.eq_dec (fst e) H) as [C|C]; [exfalso|lia]. destruct O as [|[a b] O']; [destruct He|]. destruct E7 as [_ [EO _]]. pose proof (edges_head _ _ _ _ _ EO He) as Q1.
      pose proof (E9 (a, b) (or_introl eq_refl)) as Q2. cbn [fst] in Q2. assert (Ea : a = H) by lia. subst a.
      assert (Cc : (if trailing then g else f) H = 1 /\ (if trailing then f else g) H = 0) by (apply E11; exists (H, b), O'; split; reflexivity). lia.
  - (* the next edge *)
    pose proof E10 as Ex. apply E11 in Ex. destruct Ex as [e [O' [-> Ee]]]. cbn [low_of]. rewrite Ee, Z.eqb_refl. cbn [andb].
    assert (BdB : bd f H /\ bd g H).
    { pose proof (E6 (H - 1) ltac:(lia)) as Q. unfold bd. destruct trailing; lia. }
    destruct (meet_step Rg fr X T f g L bap H s0 trailing Cu) as [s1 [K1 K2]]; [lia|exact Qt|apply BdB|apply BdB|exact Bg|exact Zg|apply Rows; lia|exact IX|exact E4|destruct trailing; lia|exact Bf|exact CP|].
    exists s1. split; [exact K1|]. split; [|exact E7]. right. split; [exact K2|]. exists e. split; [apply in_or_app; right; left; reflexivity|exact Ee].
Qed.

Lemma okst_sym Rg fr X T f g p A B s : okst Rg fr X T f g p A B s -> okst Rg fr X T f g p B A s.
Proof.
  intros [[Bt L]|[Cu L]]; [left|right; split; [exact Cu|apply lows_sym; exact L]]. split; [|intros l Hl; apply L, lows_sym; exact Hl].
  destruct Bt as [h [n [M1 [M2 [it [cur [out [E [Bs [It [H1 Cs]]]]]]]]]]]. exists h, n, M1, M2, it, cur, out. split; [exact E|]. split; [exact Bs|]. split; [exact It|]. split; [exact H1|].
  destruct Cs as [[Ec [S Hd]]|[[l [Nl Kl]] Cs]].
  - left. split; [exact Ec|]. split; [exact S|]. intros k i Hi. destruct (Hd k i Hi) as [K|[Ef [t [y0 [l [A1 [A2 [A3 [A4 A5]]]]]]]]]; [left; exact K|right; split; [exact Ef|]].
    exists t, y0, l. split; [exact A1|]. split; [exact A2|]. split; [exact A3|]. split; [exact A4|]. intros l0 Hl. apply A5, lows_sym. exact Hl.
  - right. split; [exists l; split; [apply lows_sym; exact Nl|exact Kl]|exact Cs].
Qed.

Definition endst (Rg : Z -> Z -> bool) (fr : bool) (X : Z) (T : Z -> Z -> Z) (g : Z -> Z) (s : pform) : Prop :=
  exists h n M it out, s = mk_pform h n M it None false out /\ ksorted M /\ (forall k, In k (keys M) <-> bd g k) /\ ST Rg fr X T h n (ids M) [] out /\ heads1 Rg X h M.

Lemma loop_ok Rg fr X T f g : bin f -> bin g -> zero_below g -> zero_above f -> is_int X -> colP Rg X f g -> forall fuel p A B s,
  (length A + length B < fuel)%nat -> okst Rg fr X T f g p A B s -> rem_ok p f g A B ->
  exists s', edges_loop fuel fr X A B s = Some s' /\ endst Rg fr X T g s'.
Proof.
  intros Bf Bg Zg Zf IX CP. induction fuel as [|fuel IH]; intros p A B s Lf Ok R; [lia|]. cbn [edges_loop].
  assert (Right : forall a b B', B = (a, b) :: B' -> (forall e, In e A -> a <= fst e) ->
    exists s', (do s1 <- one_edge fr X (a, b) true A B' s; edges_loop fuel fr X A B' s1) = Some s' /\ endst Rg fr X T g s').
  { intros a b B' -> LA. destruct (one_step Rg fr X T f g p true a b B' A s Bf Bg Zg Zf IX CP (okst_sym _ _ _ _ _ _ _ _ _ _ Ok) (rem_swap _ _ _ _ _ R) LA) as [s1 [K1 [K2 K3]]].
    cbv beta iota in K1. rewrite K1. cbn [bind]. apply (IH b); [cbn [length] in Lf; lia|apply okst_sym; exact K2|apply rem_swap; exact K3]. }
  assert (Left : forall a b A', A = (a, b) :: A' -> (forall e, In e B -> a <= fst e) ->
    exists s', (do s1 <- one_edge fr X (a, b) false A' B s; edges_loop fuel fr X A' B s1) = Some s' /\ endst Rg fr X T g s').
  { intros a b A' -> LB. destruct (one_step Rg fr X T f g p false a b A' B s Bf Bg Zg Zf IX CP Ok R LB) as [s1 [K1 [K2 K3]]].
    cbv beta iota in K1. rewrite K1. cbn [bind]. apply (IH b); [cbn [length] in Lf; lia|exact K2|exact K3]. }
  pose proof R as [EA [EB [RA RB]]].
  destruct A as [|[a b] A'], B as [|[c d] B'].
  - destruct Ok as [[Bt _]|[_ [e [[] _]]]]. exists s. split; [reflexivity|].
    destruct Bt as [h [n [M1 [M2 [it [cur [out [-> [[S K1 K2] [It [H1 Cs]]]]]]]]]]].
    destruct Cs as [[-> [St Hd]]|[[l [[e [[] _]] _]] _]].
    assert (Eq : forall y, p <= y -> f y = g y).
    { intros y Hy. pose proof (Bf y). pose proof (Bg y). destruct (RA y Hy) as [RA1 _]. destruct (RB y Hy) as [RB1 _].
      destruct (Z.eq_dec (f y) (g y)) as [E|E]; [exact E|exfalso]. assert (C : (f y = 0 /\ g y = 1) \/ (f y = 1 /\ g y = 0)) by lia.
      destruct C as [C|C]; [destruct (RA1 C) as [e [[] _]]|destruct (RB1 C) as [e [[] _]]]. }
    exists h, n, (M1 ++ M2), it, out. split; [reflexivity|]. split; [exact S|]. split; [|split; [rewrite ids_app; exact St|]].
    + intros k. rewrite keys_app, in_app_iff, K1, K2. split.
      * intros [[_ C]|[L C]]; [exact C|]. unfold bd in *. rewrite <- !Eq by lia. exact C.
      * intros C. destruct (Z_le_dec k p) as [L|L]; [left; tauto|right]. split; [lia|]. unfold bd in *. rewrite !Eq by lia. exact C.
    + apply heads1_app. split; [exact H1|]. intros k i Hi.
      destruct (Hd k i Hi) as [[xp [_ [V Rn]]]|[_ [t [y0 [l [A1 [A2 [A3 _]]]]]]]]; [exists xp; split; [exact V|]|exists X; split; [exists t, (y0 :: l); tauto|apply run_one]].
      assert (Kp : p < k) by (apply K2, (in_keys k i); exact Hi). apply (run_next Rg X f g xp k CP); [apply Eq; lia|apply Eq; lia|exact Rn].
  - cbn [low_of fst]. assert (c < INT_MAX) by (destruct (edges_lows _ _ (c, d) EB (or_introl eq_refl)) as [_ [Q1 [_ Q2]]]; unfold is_int in Q2; cbn [fst snd] in *; lia).
    replace (c <? INT_MAX) with true by lia. apply Right; [reflexivity|intros e []].
  - cbn [low_of fst]. assert (a < INT_MAX) by (destruct (edges_lows _ _ (a, b) EA (or_introl eq_refl)) as [_ [Q1 [_ Q2]]]; unfold is_int in Q2; cbn [fst snd] in *; lia).
    replace (INT_MAX <? a) with false by lia. apply Left; [reflexivity|intros e []].
  - cbn [low_of fst]. destruct (Z.ltb_spec c a) as [C|C].
    + apply Right; [reflexivity|]. intros e He. pose proof (edges_head _ _ _ _ _ EA He). lia.
    + apply Left; [reflexivity|]. intros e He. pose proof (edges_head _ _ _ _ _ EB He). lia.
Qed.

Lemma column_ok Rg fr X C f g h n M p A B : bin f -> bin g -> zero_above f -> is_int X -> (forall y, y <= p -> f y = 0 /\ g y = 0) ->
  st X h n (ids M) [] C -> ksorted M -> (forall k, In k (keys M) <-> bd f k) -> heads2 Rg X h M -> (fr = true -> forall i, In i (ids M) -> hol h i = []) ->
  colP Rg X f g -> (fr = false -> gq Rg h (ids M) /\ forall i, In i (ids M) -> forall k, In k (hol h i) -> gr Rg h true k) ->
  rem_ok p f g A B -> (forall l, lows A B l -> p < l) ->
  exists s', edges_loop (S (length A + length B)) fr X A B (mk_pform h n M (m_begin M) None false []) = Some s' /\ endst Rg fr X C g s'.
Proof.
  intros Bf Bg Zf IX Low S K Km Hd Hf CP Hg R Ll. apply (loop_ok Rg fr X C f g Bf Bg) with (p := p); [exists (p + 1); intros y Hy; apply Low; lia|exact Zf|exact IX|exact CP|lia| |exact R].
  left. split; [|exact Ll]. exists h, n, [], M, (m_begin M), None, []. split; [reflexivity|]. split; [|split; [apply it_begin; exact K|split; [intros k i []|]]].
  - constructor; [exact K| |].
    + intros k. split; [intros []|]. intros [L Bd]. exfalso. unfold bd in Bd. destruct (Low k ltac:(lia)) as [_ E1]. destruct (Low (k - 1) ltac:(lia)) as [_ E2]. congruence.
    + intros k. rewrite Km. split; [|tauto]. intros Bd. split; [|exact Bd]. destruct (Z_lt_dec p k) as [L|L]; [exact L|exfalso]. unfold bd in Bd.
      destruct (Low k ltac:(lia)) as [E1 _]. destruct (Low (k - 1) ltac:(lia)) as [E2 _]. congruence.
  - left. split; [reflexivity|]. split; [|intros k i Hi; left; apply Hd; exact Hi]. cbn [app ids map]. constructor.
    + apply (st_ext X h n (ids M) [] C); [exact S|]. intros x y _. cbn [PH zsum fold_right]. lia.
    + intros a [].
    + intros Ef. split; [reflexivity|]. split; [apply Hf; exact Ef|intros a []].
    + intros Ef. destruct (Hg Ef) as [G1 G2]. constructor; [exact G1| |intros a []|exact I]. intros i [Hi|[]]. rewrite app_nil_r in Hi. apply G2. exact Hi.
Qed.
