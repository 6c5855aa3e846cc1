(* A vertex: the tails that come are joined or go on, every edge that begins has a tail. *)
From Verif Require Import Base Units Outcome Scan90Spec Poly90Spec Poly90Model GeoSpec IvlModel RectModel SegModel PolySpec PolyModel ScanBaseModel SnapModel SnapSpec ArbSpec ArbModel ArbSetModel ArbFormSpec ArbFormModel ArbFormChains.
From Coq Require Import Sorting.Permutation Arith.

(* the counts change between the covered side and the other one *)
Fixpoint alt (b : Z) (s : bool) (l : list Z) (e : bool) : Prop :=
  match l with [] => s = e | c :: l' => c = (if s then b else - b) /\ alt b (negb s) l' e end.
Definition flat {X : Type} (ps : list (X * X)) : list X := flat_map (fun xy => [fst xy; snd xy]) ps.
Section pairs.
  Context {X : Type} (v : X -> Z) (b : Z) (NZ : b <> 0).
  Lemma mp_false : forall n l e, (length l <= n)%nat -> alt b false (map v l) e -> exists ps r, match_pairs v (- b) b None l = (ps, r) /\ l = flat ps ++ r /\
    (forall x y, In (x, y) ps -> v x = - b /\ v y = b) /\ (if e then exists x, r = [x] /\ v x = - b else r = []).
  Proof.
    induction n as [|n IH]; intros l e L A.
    - destruct l; [|cbn [length] in L; lia]. exists [], []. cbn [map alt] in A. subst e. split; [reflexivity|]. split; [reflexivity|]. split; [intros ? ? []|reflexivity].
    - destruct l as [|x l]; [cbn [map alt] in A; subst e; exists [], []; split; [reflexivity|]; split; [reflexivity|]; split; [intros ? ? []|reflexivity]|].
      cbn [map alt negb] in A. destruct A as [A1 A2]. cbn [match_pairs]. assert (VX : (v x =? 0) = false) by (apply Z.eqb_neq; lia). rewrite VX.
      destruct l as [|y l].
      + cbn [map alt] in A2. subst e. exists [], [x]. split; [reflexivity|]. split; [reflexivity|]. split; [intros ? ? []|exists x; auto].
      + cbn [map alt negb] in A2. destruct A2 as [A2 A3]. cbn [match_pairs]. assert (VY : (v y =? 0) = false) by (apply Z.eqb_neq; lia). rewrite VY.
        assert (VXY : (v x =? - b) && (v y =? b) = true) by (rewrite andb_true_iff, !Z.eqb_eq; auto). rewrite VXY.
        destruct (IH l e) as [ps [r [E [EL [PS R]]]]]; [cbn [length] in L; lia|exact A3|]. rewrite E. exists ((x, y) :: ps), r. split; [reflexivity|]. split; [unfold flat; cbn [flat_map fst snd app]; rewrite EL; reflexivity|]. split; [|exact R].
        intros x' y' [K|K]; [assert (x' = x /\ y' = y) as [-> ->] by (split; congruence); auto|apply PS, K].
  Qed.
  Lemma mp_true l e : alt b true (map v l) e -> l = [] /\ e = true \/ exists y l' ps r, l = y :: l' /\ v y = b /\ match_pairs v (- b) b None l = (ps, y :: r) /\ l' = flat ps ++ r /\
    (forall x y, In (x, y) ps -> v x = - b /\ v y = b) /\ (if e then exists x, r = [x] /\ v x = - b else r = []).
  Proof.
    intros A. destruct l as [|y l']; [left; cbn [map alt] in A; auto|]. right. cbn [map alt negb] in A. destruct A as [A1 A2].
    destruct (mp_false (length l') l' e (le_n _) A2) as [ps [r [E [EL [PS R]]]]]. exists y, l', ps, r. split; [reflexivity|]. split; [exact A1|]. split; [|auto].
    cbn [match_pairs]. assert (VY : (v y =? 0) = false) by (apply Z.eqb_neq; lia). rewrite VY. destruct l' as [|x l''].
    - cbn [match_pairs] in E |- *. injection E as <- <-. reflexivity.
    - cbn [map alt negb] in A2. destruct A2 as [A2 _]. cbn [match_pairs] in E |- *. assert (VX : (v x =? 0) = false) by (apply Z.eqb_neq; lia). rewrite VX in *.
      assert (V : (v y =? - b) && (v x =? b) = false) by (rewrite andb_false_iff; left; apply Z.eqb_neq; lia). rewrite V, E. reflexivity.
  Qed.
End pairs.

Definition cact (q : nat -> point) (c : cent) : aent := (q (snd (fst c)), c_count c, snd (fst c)).
Definition ent (e : felem) : aent := (s_low (fst e), fst (snd e), snd (snd e)).
Definition key (e : felem) : seg * Z := (fst e, fst (snd e)).
Definition ikey (p : point) (i : ient) : seg * Z := (mk_seg p (fst (fst i)), i_count i).
Definition cdir (q : nat -> point) (p : point) (c : cent) : point * point := dirq (q (snd (fst c))) (c_count c) p.
Definition newkeys (p : point) (is : list ient) : list (seg * Z) := map (ikey p) (filter (fun i => negb (snd i)) is).
Definition flags (is : list ient) : list ient := filter (fun i => snd i) is.
Lemma flags_app a b : flags (a ++ b) = flags a ++ flags b.
Proof. apply filter_app. Qed.
Lemma flags_cons i l : flags (i :: l) = (if snd i then [i] else []) ++ flags l.
Proof. unfold flags. cbn [filter]. destruct (snd i); reflexivity. Qed.
Lemma flags_perm l m : Permutation l m -> Permutation (flags l) (flags m).
Proof.
  intros PP. induction PP as [|x l m PP IH|x y l|l m n P1 IH1 P2 IH2].
  - apply Permutation_refl.
  - rewrite !flags_cons. apply Permutation_app_head, IH.
  - rewrite !flags_cons. destruct (snd x), (snd y); cbn [app]; try apply perm_swap; apply Permutation_refl.
  - eapply Permutation_trans; eassumption.
Qed.
Lemma newkeys_perm p l m : Permutation l m -> Permutation (newkeys p l) (newkeys p m).
Proof.
  intros PP. unfold newkeys. apply Permutation_map. induction PP as [|x l m PP IH|x y l|l m n P1 IH1 P2 IH2]; cbn [filter].
  - apply Permutation_refl.
  - destruct (negb (snd x)); [apply perm_skip|]; exact IH.
  - destruct (negb (snd x)), (negb (snd y)); try apply perm_swap; apply Permutation_refl.
  - eapply Permutation_trans; eassumption.
Qed.
Definition vrel (p : point) (s : pstate) (fl : list ient) (va : list aent) : Prop :=
  match fl with [] => p_rv s = None /\ p_rc s = 0 /\ va = [] | [i] => va = match p_rv s with Some t => [(p, i_count i, t)] | None => [] end /\ p_rv s <> None /\ p_rc s = - i_count i | _ => False end.
Definition stage (p : point) (elems : list felem) (s : pstate) (dn : list ient) (hl : list chain) (oth : list aent) (t0 : list (point * point)) : Prop :=
  exists new va, p_elems s = elems ++ new /\ Permutation (map key new) (newkeys p dn) /\ vrel p s (flags dn) va /\ Inv (p_st s) hl (map ent new ++ va ++ oth) /\ Permutation (T (p_st s)) t0.

Lemma ae_perm_front (a b c : list aent) x : Permutation (a ++ b ++ x :: c) (x :: a ++ b ++ c).
Proof. pcount ae_dec. Qed.
Lemma ae_perm_front2 (a b c : list aent) x y : Permutation (a ++ b ++ x :: y :: c) (x :: y :: a ++ b ++ c).
Proof. pcount ae_dec. Qed.

Lemma case1_ok q p ps : forall elems s dn oth t0, (forall x y, In (x, y) ps -> c_count x = -1 /\ c_count y = 1 /\ q (snd (fst x)) <> p /\ q (snd (fst y)) <> p) ->
  stage p elems s dn [] (map (cact q) (flat ps) ++ oth) t0 -> exists s', case1 p ps s = Ok s' /\ stage p elems s' dn [] oth (map (cdir q p) (flat ps) ++ t0).
Proof.
  induction ps as [|[x y] ps IH]; intros elems s dn oth t0 H S; [exists s; split; [reflexivity|exact S]|].
  destruct (H x y (or_introl eq_refl)) as [H1 [H2 [H3 H4]]]. destruct S as [new [va [E1 [E2 [E3 [E4 E5]]]]]]. unfold flat in E4. cbn [flat_map fst snd app map] in E4.
  eapply Inv_perm in E4; [|apply ae_perm_front2]. unfold cact at 1 2 in E4.
  destruct (join_ok _ _ _ _ _ _ _ _ _ p true E4) as [st' [h [J1 [J2 J3]]]]; [lia|exact H3|exact H4|].
  cbn [case1]. rewrite J1. cbn [obind]. cbv iota beta. destruct J3 as [[_ J3]|[J3 _]]; [|discriminate J3].
  destruct (IH elems (p_set s st') dn oth (cdir q p x :: cdir q p y :: t0)) as [s' [C1 C2]].
  - intros x' y' K. apply H. right. exact K.
  - exists new, va. split; [exact E1|]. split; [exact E2|]. split; [exact E3|]. split; [exact J3|]. cbn [p_set p_st]. unfold cdir. clear - J2 E5. pcount pp_dec.
  - exists s'. split; [exact C1|]. destruct C2 as [new' [va' [F1 [F2 [F3 [F4 F5]]]]]]. exists new', va'. repeat (split; [assumption|]). unfold flat in F5 |- *. cbn [flat_map fst snd app map]. clear - F5. pcount pp_dec.
Qed.

Lemma filter_snoc {A : Type} (f : A -> bool) l a : filter f (l ++ [a]) = filter f l ++ (if f a then [a] else []).
Proof. rewrite filter_app. reflexivity. Qed.
Lemma new_ok p elems s dn hl oth t0 i c t : stage p elems s dn hl ((p, i_count i, t) :: oth) t0 -> snd i = false -> c = i_count i ->
  stage p elems (mk_ps (p_st s) (p_elems s ++ [(mk_seg p (fst (fst i)), (c, t))]) (p_rc s) (p_rv s)) (dn ++ [i]) hl oth t0.
Proof.
  intros [new [va [E1 [E2 [E3 [E4 E5]]]]]] F ->. exists (new ++ [(mk_seg p (fst (fst i)), (i_count i, t))]), va. cbn [p_elems p_st].
  split; [rewrite E1, app_assoc; reflexivity|]. split; [|split; [|split; [|exact E5]]].
  - unfold newkeys. rewrite filter_snoc, F. cbn [negb]. rewrite !map_app. apply Permutation_app; [exact E2|]. apply Permutation_refl.
  - unfold flags. rewrite filter_snoc, F, app_nil_r. exact E3.
  - eapply Inv_perm; [exact E4|]. rewrite map_app. cbn [map]. unfold ent at 3. cbn [fst snd s_low]. clear. pcount ae_dec.
Qed.
Lemma emit_ok p elems s dn hl oth t0 i rc c t : stage p elems s dn hl ((p, i_count i, t) :: oth) t0 -> (snd i = true -> flags dn = []) -> c = i_count i -> rc = - i_count i ->
  stage p elems (emit p i rc c t s) (dn ++ [i]) hl oth t0.
Proof.
  intros S F EC ER. unfold emit. destruct (snd i) eqn:Q; [|apply new_ok; assumption]. specialize (F eq_refl). destruct S as [new [va [E1 [E2 [E3 [E4 E5]]]]]]. rewrite F in E3. destruct E3 as [E3 [_ ->]].
  exists new, [(p, i_count i, t)]. cbn [p_elems p_st]. split; [exact E1|]. split; [|split; [|split; [exact E4|exact E5]]].
  - unfold newkeys. rewrite filter_snoc, Q. cbn [negb]. rewrite app_nil_r. exact E2.
  - unfold flags in *. rewrite filter_snoc, Q, F. cbn [app vrel p_rv p_rc]. split; [reflexivity|]. split; [discriminate|exact ER].
Qed.
(* a tail takes the place of another one *)
Lemma stage_perm p elems s dn hl oth oth' t0 : stage p elems s dn hl oth t0 -> Permutation oth oth' -> stage p elems s dn hl oth' t0.
Proof.
  intros [new [va [E1 [E2 [E3 [E4 E5]]]]]] P. exists new, va. repeat (split; [assumption|]). split; [|exact E5]. eapply Inv_perm; [exact E4|]. do 2 apply Permutation_app_head. exact P.
Qed.
Lemma stage_t p elems s dn hl oth t0 t1 : stage p elems s dn hl oth t0 -> Permutation t0 t1 -> stage p elems s dn hl oth t1.
Proof. intros [new [va [E1 [E2 [E3 [E4 E5]]]]]] P. exists new, va. repeat (split; [assumption|]). eapply Permutation_trans; [exact E5|exact P]. Qed.
Lemma stage_set p elems s dn hl hl' oth oth' t0 t1 st :
  (forall act, Inv (p_st s) hl (act ++ oth) -> Inv st hl' (act ++ oth')) -> (Permutation (T (p_st s)) t0 -> Permutation (T st) t1) -> stage p elems s dn hl oth t0 -> stage p elems (p_set s st) dn hl' oth' t1.
Proof.
  intros A B [new [va [E1 [E2 [E3 [E4 E5]]]]]]. exists new, va. repeat (split; [assumption|]). cbn [p_set p_st]. split; [rewrite app_assoc; apply A; rewrite <- app_assoc; exact E4|apply B, E5].
Qed.
Lemma push_stage p elems s dn oth t0 q c t : stage p elems s dn [] ((q, c, t) :: oth) t0 -> q <> p -> exists st, push_point t p (p_st s) = Ok st /\ stage p elems (p_set s st) dn [] ((p, c, t) :: oth) (dirq q c p :: t0).
Proof.
  intros [new [va [E1 [E2 [E3 [E4 E5]]]]]] N. eapply Inv_perm in E4; [|apply ae_perm_front]. destruct (push_ok _ _ _ _ _ _ p E4 N) as [st [A [B [C _]]]]. exists st. split; [exact A|].
  exists new, va. repeat (split; [assumption|]). cbn [p_set p_st]. split; [eapply Inv_perm; [exact B|apply Permutation_sym, ae_perm_front]|]. clear - C E5. pcount pp_dec.
Qed.

Lemma case2_ok p ps : forall elems s dn hl oth t0, (forall x y, In (x, y) ps -> i_count x = 1 /\ i_count y = -1 /\ snd x = false) -> (length (flags (dn ++ flat ps)) <= 1)%nat ->
  stage p elems s dn hl oth t0 -> exists s', case2 p ps s = Ok s' /\ exists dn', Permutation dn' (dn ++ flat ps) /\ stage p elems s' dn' hl oth t0.
Proof.
  induction ps as [|[x y] ps IH]; intros elems s dn hl oth t0 H L S.
  - exists s. split; [reflexivity|]. exists dn. split; [unfold flat; cbn [flat_map]; rewrite app_nil_r; apply Permutation_refl|exact S].
  - destruct (H x y (or_introl eq_refl)) as [H1 [H2 H3]]. cbn [case2].
    assert (C : exists st a b, create_pair p true None (p_st s) = Ok (st, (a, b)) /\ stage p elems (p_set s st) dn hl ((p, -1, a) :: (p, 1, b) :: oth) t0).
    { destruct S as [new [va [E1 [E2 [E3 [E4 E5]]]]]]. destruct (create_solid_ok _ _ p _ E4) as [st [a [b [A [B C]]]]]. exists st, a, b. split; [exact A|]. exists new, va. repeat (split; [assumption|]).
      cbn [p_set p_st]. split; [eapply Inv_perm; [exact B|apply Permutation_sym, ae_perm_front2]|]. eapply Permutation_trans; [exact C|exact E5]. }
    destruct C as [st [a [b [C1 C2]]]]. rewrite C1. cbn [obind]. cbv iota beta. cbv zeta.
    assert (FY : snd y = true -> flags dn = []).
    { intros Q. rewrite flags_app in L. rewrite app_length in L. unfold flat in L. cbn [flat_map fst snd app] in L. rewrite (flags_cons x), (flags_cons y), H3, Q in L. cbn [length app] in L. destruct (flags dn) as [|z m]; [reflexivity|cbn [length] in L; lia]. }
    assert (S2 : stage p elems (emit p y 1 (-1) a (p_set s st)) (dn ++ [y]) hl ((p, 1, b) :: oth) t0).
    { apply emit_ok; [rewrite H2; exact C2|exact FY|lia|lia]. }
    assert (S3 : stage p elems (mk_ps (p_st (emit p y 1 (-1) a (p_set s st))) (p_elems (emit p y 1 (-1) a (p_set s st)) ++ [(mk_seg p (fst (fst x)), (1, b))]) (p_rc (emit p y 1 (-1) a (p_set s st))) (p_rv (emit p y 1 (-1) a (p_set s st)))) ((dn ++ [y]) ++ [x]) hl oth t0).
    { apply new_ok; [rewrite H1; exact S2|exact H3|lia]. }
    assert (PP : Permutation (((dn ++ [y]) ++ [x]) ++ flat ps) (dn ++ flat ((x, y) :: ps))).
    { unfold flat. cbn [flat_map fst snd app]. rewrite <- !app_assoc. apply Permutation_app_head. cbn [app]. apply perm_swap. }
    match type of S3 with stage _ _ ?ss _ _ _ _ => destruct (IH elems ss ((dn ++ [y]) ++ [x]) hl oth t0) as [s' [D1 [dn' [D2 D3]]]] end; [| |exact S3|].
    + intros x' y' K. apply H. right. exact K.
    + eapply Nat.le_trans; [|exact L]. apply Nat.eq_le_incl, Permutation_length, flags_perm, PP.
    + exists s'. split; [exact D1|]. exists dn'. split; [|exact D3]. eapply Permutation_trans; [exact D2|exact PP].
Qed.

Definition last_flag (is : list ient) : Prop := forall a x b, is = a ++ x :: b -> b <> [] -> snd x = false.
Lemma last_flag_length is : last_flag is -> (length (flags is) <= 1)%nat.
Proof.
  induction is as [|x is IH]; intros H; [cbn; lia|]. rewrite flags_cons. destruct is as [|y is]; [destruct (snd x); cbn; lia|].
  rewrite (H [] x (y :: is) eq_refl) by discriminate. cbn [app]. apply IH. intros a z b E. apply (H (x :: a) z b). cbn [app]. congruence.
Qed.
Lemma flat_in {X : Type} (ps : list (X * X)) x y : In (x, y) ps -> In x (flat ps) /\ In y (flat ps).
Proof. intros H. unfold flat. split; apply in_flat_map; exists (x, y); (split; [exact H|]); cbn [fst snd In]; auto. Qed.
Lemma flat_split {X : Type} (ps : list (X * X)) x y : In (x, y) ps -> exists a b, flat ps = a ++ x :: y :: b.
Proof.
  intros H. induction ps as [|[u w] ps IH]; [destruct H|]. destruct H as [H|H].
  - assert (u = x /\ w = y) as [-> ->] by (split; congruence). exists [], (flat ps). reflexivity.
  - destruct (IH H) as [a [b E]]. exists (u :: w :: a), b. unfold flat in *. cbn [flat_map fst snd app]. rewrite E. reflexivity.
Qed.
(* the result of a vertex *)
Definition result (top : bool) (p : point) (elems : list felem) (s : pstate) (is : list ient) (hl : list chain) (oth : list aent) (t0 : list (point * point)) : Prop :=
  stage p elems s is hl oth t0 \/
  is = [] /\ hl = [] /\ top = true /\ p_rc s = 0 /\ exists t hc, p_rv s = Some t /\ In t (ids hc) /\ p_elems s = elems /\ Inv (p_st s) [hc] oth /\ Permutation (T (p_st s)) t0.
Lemma stage_dn p elems s dn dn' hl oth t0 : Permutation dn dn' -> stage p elems s dn hl oth t0 -> stage p elems s dn' hl oth t0.
Proof.
  intros P [new [va [E1 [E2 [E3 [E4 E5]]]]]]. exists new, va. split; [exact E1|]. split; [eapply Permutation_trans; [exact E2|apply newkeys_perm, P]|]. split; [|auto].
  apply flags_perm in P. destruct (flags dn) as [|i [|j m]]; [|apply Permutation_length_1_inv in P; rewrite P; exact E3|destruct E3].
  apply Permutation_nil in P. rewrite P. exact E3.
Qed.
Lemma nz1 {X : Type} (v : X -> Z) x l : v x <> 0 -> first_nz v (x :: l) = Some (x, l).
Proof. intros N. cbn [first_nz]. rewrite (proj2 (Z.eqb_neq _ _) N). reflexivity. Qed.
Lemma nz1l {X : Type} (v : X -> Z) x l : v x <> 0 -> last_nz v (l ++ [x]) = Some (x, l).
Proof. intros N. unfold last_nz. rewrite rev_app_distr. cbn [rev app first_nz]. rewrite (proj2 (Z.eqb_neq _ _) N), rev_involutive. reflexivity. Qed.
Lemma nz2l {X : Type} (v : X -> Z) x : v x <> 0 -> last_nz v [x] = Some (x, []).
Proof. apply (nz1l v x []). Qed.
Lemma nz3l {X : Type} (v : X -> Z) x y : v x <> 0 -> last_nz v [y; x] = Some (x, [y]).
Proof. apply (nz1l v x [y]). Qed.

(* what is left after the pairs *)
Definition left_c (top bot : bool) (cs : list cent) : Prop :=
  match top, bot with
  | false, false => cs = [] | false, true => exists c, cs = [c] /\ c_count c = -1 | true, false => exists c, cs = [c] /\ c_count c = 1
  | true, true => cs = [] \/ exists c d, cs = [c; d] /\ c_count c = 1 /\ c_count d = -1
  end.
Definition left_i (top bot : bool) (is : list ient) : Prop :=
  match top, bot with
  | false, false => is = [] | true, false => exists i, is = [i] /\ i_count i = 1 | false, true => exists i, is = [i] /\ i_count i = -1
  | true, true => is = [] \/ exists i j, is = [i; j] /\ i_count i = -1 /\ i_count j = 1
  end.
Lemma counts_left top bot cs : alt 1 top (map c_count cs) bot -> exists ps r, match_pairs c_count (-1) 1 None cs = (ps, r) /\ Permutation cs (flat ps ++ r) /\
  (forall x y, In (x, y) ps -> c_count x = -1 /\ c_count y = 1) /\ left_c top bot r.
Proof.
  intros A. destruct top.
  - apply mp_true in A; [|lia]. destruct A as [[-> ->]|[y [l' [ps [r [-> [VY [E [EL [PS R]]]]]]]]]].
    + exists [], []. split; [reflexivity|]. split; [apply Permutation_refl|]. split; [intros ? ? []|left; reflexivity].
    + exists ps, (y :: r). split; [exact E|]. split; [rewrite EL; apply Permutation_middle|]. split; [exact PS|]. destruct bot; cbn [left_c].
      * right. destruct R as [x [-> VX]]. exists y, x. auto.
      * subst r. exists y. auto.
  - destruct (mp_false c_count 1 ltac:(lia) (length cs) cs bot (le_n _) A) as [ps [r [E [EL [PS R]]]]]. exists ps, r. split; [exact E|]. split; [rewrite EL; apply Permutation_refl|]. split; [exact PS|].
    destruct bot; exact R.
Qed.
Lemma incoming_left top bot is : last_flag is -> alt (-1) bot (map i_count is) top -> exists ps r, match_pairs i_count 1 (-1) None is = (ps, r) /\ Permutation is (flat ps ++ r) /\
  (forall x y, In (x, y) ps -> i_count x = 1 /\ i_count y = -1 /\ snd x = false) /\ left_i top bot r /\ (is <> [] -> forall i j, r = [i; j] -> snd i = false) /\ (top = true -> bot = true -> r = [] -> is = []).
Proof.
  intros LF A. destruct bot.
  - apply mp_true in A; [|lia]. destruct A as [[-> ->]|[y [l' [ps [r [E0 [VY [E [EL [PS R]]]]]]]]]].
    + exists [], []. split; [reflexivity|]. split; [apply Permutation_refl|]. split; [intros ? ? []|]. split; [left; reflexivity|]. split; [congruence|reflexivity].
    + exists ps, (y :: r). split; [exact E|]. split; [rewrite E0, EL; apply Permutation_middle|]. split.
      * intros x z K. destruct (PS x z K) as [K1 K2]. split; [lia|split; [lia|]]. destruct (flat_split ps x z K) as [a [b F]]. apply (LF (y :: a) x (z :: b ++ r)); [rewrite E0, EL, F; cbn [app]; rewrite <- app_assoc; reflexivity|discriminate].
      * split; [|split; [|discriminate]].
        -- destruct top; cbn [left_i]; [right|]. { destruct R as [x [-> VX]]. exists y, x. auto. } { subst r. exists y. auto. }
        -- intros _ i j Q. assert (y = i) as -> by congruence. assert (r = [j]) as -> by congruence. apply (LF [] i l'); [exact E0|]. rewrite EL. intros K. destruct (flat ps); discriminate K.
  - destruct (mp_false i_count (-1) ltac:(lia) (length is) is top (le_n _) A) as [ps [r [E [EL [PS R]]]]]. exists ps, r. split; [exact E|]. split; [rewrite EL; apply Permutation_refl|]. split.
    + intros x z K. destruct (PS x z K) as [K1 K2]. split; [lia|split; [lia|]]. destruct (flat_split ps x z K) as [a [b F]]. apply (LF a x (z :: b ++ r)); [rewrite EL, F; rewrite <- app_assoc; reflexivity|discriminate].
    + split; [destruct top; exact R|]. split; [|discriminate]. intros _ i j Q. destruct top; [destruct R as [x [R _]]|]; rewrite Q in R; discriminate R.
Qed.
Lemma zero_incoming is : match_pairs i_count 1 (-1) None (@nil ient) = ([], is) -> is = [].
Proof. intros H. injection H as <-. reflexivity. Qed.

(* the cases from 3 on, with what is left *)
Definition cases (p : point) (cs : list cent) (is : list ient) (s : pstate) : outcome pstate :=
  try ' (cs, is, s) <- case3 p cs is s;
  try ' (cs, is, s) <- case4 p cs is s;
  try ' (cs, s) <- case5 p cs s;
  try ' (cs, s) <- case6 p cs is s;
  pass_on p cs s.
Lemma rest_nil p (s : pstate) : (try ' (cs, s) <- case5 p [] s; try ' (cs, s) <- case6 p cs [] s; pass_on p cs s) = Ok s.
Proof. reflexivity. Qed.
Lemma flags_done dn i l : (length (flags (dn ++ i :: l)) <= 1)%nat -> snd i = true -> flags dn = [].
Proof. intros L Q. rewrite flags_app, app_length, flags_cons, Q in L. cbn [app length] in L. destruct (flags dn) as [|z m]; [reflexivity|cbn [length] in L; lia]. Qed.
Lemma push3 q p elems s dn c i oth t0 : q (snd (fst c)) <> p -> c_count c = i_count i -> (snd i = true -> flags dn = []) -> stage p elems s dn [] (cact q c :: oth) t0 ->
  exists st, push_point (snd (fst c)) p (p_st s) = Ok st /\ forall rc, rc = - i_count i -> stage p elems (emit p i rc (i_count i) (snd (fst c)) (p_set s st)) (dn ++ [i]) [] oth (cdir q p c :: t0).
Proof.
  intros N EC F S. unfold cact in S. destruct (push_stage _ _ _ _ _ _ _ _ _ S N) as [st [A B]]. exists st. split; [exact A|]. intros rc ER. apply emit_ok; [rewrite <- EC; exact B|exact F|reflexivity|exact ER].
Qed.
Lemma cases_ok q p elems s dn cs is top bot oth t0 : left_c top bot cs -> left_i top bot is -> (forall c, In c cs -> q (snd (fst c)) <> p) -> (length (flags (dn ++ is)) <= 1)%nat ->
  (forall i j, is = [i; j] -> snd i = false) -> (top = true -> bot = true -> is = [] -> dn = [] ) ->
  stage p elems s dn [] (map (cact q) cs ++ oth) t0 -> exists s' dn', cases p cs is s = Ok s' /\ Permutation dn' (dn ++ is) /\ result top p elems s' dn' [] oth (map (cdir q p) cs ++ t0).
Proof.
  intros LC LI NQ FL FI DN S. unfold cases. destruct top, bot; cbn [left_c left_i] in LC, LI.
  - destruct LC as [->|[c [d [-> [C1 C2]]]]], LI as [->|[i [j [-> [I1 I2]]]]].
    + cbn. eexists. exists dn. split; [reflexivity|]. split; [rewrite app_nil_r; apply Permutation_refl|left; exact S].
    + (* the beginning of a hole *)
      change (case3 p [] [i; j] s) with (Ok (@nil cent, [i; j], s)). cbn [obind]. cbv iota beta. change (case4 p [] [i; j] s) with (Ok (@nil cent, [i; j], s)). cbn [obind]. cbv iota beta.
      change (case5 p [] s) with (Ok (@nil cent, s)). cbn [obind]. cbv iota beta. unfold case6. rewrite nz1 by lia. rewrite nz1 by lia. change (vert_below []) with (@None (cent * list cent)). cbv iota beta.
      assert (C : exists st a b, create_pair p false None (p_st s) = Ok (st, (a, b)) /\ stage p elems (p_set s st) dn [] ((p, -1, b) :: (p, 1, a) :: oth) t0).
      { destruct S as [new [va [E1 [E2 [E3 [E4 E5]]]]]]. destruct (create_hole_ok _ _ None p _ E4 eq_refl) as [st [a [b [A [B C]]]]]. exists st, a, b. split; [exact A|]. exists new, va. repeat (split; [assumption|]).
        cbn [p_set p_st]. split; [eapply Inv_perm; [exact B|apply Permutation_sym, ae_perm_front2]|]. eapply Permutation_trans; [exact C|exact E5]. }
      destruct C as [st [a [b [C1 C2]]]]. rewrite C1. cbn [obind]. cbv iota beta. cbv zeta. cbn [obind]. cbv iota beta. unfold pass_on. change (vert_below []) with (@None (cent * list cent)). cbv iota beta. eexists. exists ((dn ++ [j]) ++ [i]). split; [reflexivity|].
      split; [rewrite <- app_assoc; apply Permutation_app_head; cbn [app]; apply perm_swap|]. left.
      apply new_ok; [|apply (FI i j); reflexivity|reflexivity]. apply emit_ok; [|intros Q; apply (flags_done dn j []); [|exact Q]|reflexivity|lia].
      * rewrite I1, I2. eapply stage_perm; [exact C2|apply perm_swap].
      * rewrite flags_app, flags_cons, app_length in FL |- *. rewrite (flags_cons j) in FL. rewrite (FI i j eq_refl) in FL. exact FL.
    + (* the end of a hole *)
      assert (K3 : case3 p [c; d] [] s = Ok ([c; d], [], s)) by (unfold case3; rewrite nz1 by lia; rewrite C1; reflexivity). rewrite K3. cbn [obind]. cbv iota beta.
      assert (K4 : case4 p [c; d] [] s = Ok ([c; d], [], s)) by (unfold case4; rewrite nz3l by lia; rewrite C2; reflexivity). rewrite K4. cbn [obind]. cbv iota beta.
      unfold case5. rewrite nz1 by lia. rewrite nz1 by lia. destruct S as [new [va [E1 [E2 [E3 [E4 E5]]]]]]. cbn [map app] in E4. eapply Inv_perm in E4; [|apply ae_perm_front2]. unfold cact at 1 2 in E4.
      destruct (join_ok _ _ _ _ _ _ _ _ _ p false E4) as [st' [h [J1 [J2 J3]]]]; [lia|apply NQ; left; reflexivity|apply NQ; right; left; reflexivity|]. rewrite J1. cbn [obind]. cbv iota beta.
      match goal with |- context [case6 p [] [] ?x] => change (case6 p [] [] x) with (Ok (@nil cent, x)) end. cbn [obind]. cbv iota beta. unfold pass_on. change (vert_below []) with (@None (cent * list cent)). cbv iota beta. eexists. exists dn. split; [reflexivity|]. split; [rewrite app_nil_r; apply Permutation_refl|].
      rewrite (DN eq_refl eq_refl eq_refl) in *. cbn [flags filter vrel] in E3. destruct E3 as [_ [RC ->]].
      assert (new = []) as ->. { unfold newkeys in E2. cbn [filter map] in E2. apply Permutation_sym, Permutation_nil in E2. destruct new; [reflexivity|discriminate E2]. }
      assert (TT : Permutation (T st') (map (cdir q p) [c; d] ++ t0)) by (cbn [map app]; unfold cdir; clear - J2 E5; pcount pp_dec).
      destruct J3 as [[-> J3]|[_ [-> [hc [J3 J4]]]]].
      * left. exists [], []. cbn [p_elems p_st p_rv flags filter vrel]. split; [exact E1|]. split; [exact E2|]. split; [auto|]. split; [exact J3|exact TT].
      * right. split; [reflexivity|]. split; [reflexivity|]. split; [reflexivity|]. split; [exact RC|]. exists (snd (fst c)), hc. cbn [p_rv p_st p_elems]. split; [reflexivity|]. split; [exact J3|]. split; [rewrite E1, app_nil_r; reflexivity|]. split; [exact J4|exact TT].
    + assert (K3 : case3 p [c; d] [i; j] s = try st <- push_point (snd (fst c)) p (p_st s); Ok ([d], [i], emit p j (-1) (i_count j) (snd (fst c)) (p_set s st))).
      { unfold case3. rewrite nz1 by lia. rewrite C1. cbn [Z.eqb Pos.eqb]. rewrite nz3l by lia. rewrite I2. reflexivity. }
      rewrite K3. cbn [map app] in S. destruct (push3 q p elems s dn c j (cact q d :: oth) t0) as [st [A B]]; [apply NQ; left; reflexivity|lia| |exact S|].
      { intros Q. apply (flags_done dn j [i]); [|exact Q]. rewrite flags_app, !flags_cons in FL |- *. rewrite !app_length in *. lia. }
      rewrite A. cbn [obind]. cbv iota beta. specialize (B (-1) ltac:(lia)). set (s1 := emit p j (-1) (i_count j) (snd (fst c)) (p_set s st)) in *.
      assert (K4 : case4 p [d] [i] s1 = try st <- push_point (snd (fst d)) p (p_st s1); Ok ([], [], emit p i 1 (i_count i) (snd (fst d)) (p_set s1 st))).
      { unfold case4. rewrite nz2l by lia. rewrite C2. cbn [Z.eqb Pos.eqb]. rewrite nz1 by lia. rewrite I1. reflexivity. }
      rewrite K4. destruct (push3 q p elems s1 (dn ++ [j]) d i oth (cdir q p c :: t0)) as [st2 [A2 B2]]; [apply NQ; right; left; reflexivity|lia| |exact B|].
      { intros Q. rewrite (FI i j eq_refl) in Q. discriminate Q. }
      rewrite A2. cbn [obind]. cbv iota beta. specialize (B2 1 ltac:(lia)). set (s2 := emit p i 1 (i_count i) (snd (fst d)) (p_set s1 st2)) in *.
      rewrite rest_nil. exists s2, ((dn ++ [j]) ++ [i]). split; [reflexivity|]. split; [rewrite <- app_assoc; apply Permutation_app_head; cbn [app]; apply perm_swap|]. left. eapply stage_t; [exact B2|]. cbn [map app]. apply perm_swap.
  - destruct LC as [c [-> C1]], LI as [i [-> I1]].
    assert (K3 : case3 p [c] [i] s = try st <- push_point (snd (fst c)) p (p_st s); Ok ([], [], emit p i (-1) (i_count i) (snd (fst c)) (p_set s st))).
    { unfold case3. rewrite nz1 by lia. rewrite C1. cbn [Z.eqb Pos.eqb]. rewrite nz2l by lia. rewrite I1. reflexivity. }
    rewrite K3. cbn [map app] in S. destruct (push3 q p elems s dn c i oth t0) as [st [A B]]; [apply NQ; left; reflexivity|lia|intros Q; apply (flags_done dn i []); [exact FL|exact Q]|exact S|].
    rewrite A. cbn [obind]. cbv iota beta. specialize (B (-1) ltac:(lia)). set (s1 := emit p i (-1) (i_count i) (snd (fst c)) (p_set s st)) in *.
    change (case4 p [] [] s1) with (Ok (@nil cent, @nil ient, s1)). cbn [obind]. cbv iota beta. rewrite rest_nil. exists s1, (dn ++ [i]). split; [reflexivity|]. split; [apply Permutation_refl|]. left. exact B.
  - destruct LC as [c [-> C1]], LI as [i [-> I1]].
    assert (K3 : case3 p [c] [i] s = Ok ([c], [i], s)) by (unfold case3; rewrite nz1 by lia; rewrite C1; reflexivity). rewrite K3. cbn [obind]. cbv iota beta.
    assert (K4 : case4 p [c] [i] s = try st <- push_point (snd (fst c)) p (p_st s); Ok ([], [], emit p i 1 (i_count i) (snd (fst c)) (p_set s st))).
    { unfold case4. rewrite nz2l by lia. rewrite C1. cbn [Z.eqb Pos.eqb]. rewrite nz1 by lia. rewrite I1. reflexivity. }
    rewrite K4. cbn [map app] in S. destruct (push3 q p elems s dn c i oth t0) as [st [A B]]; [apply NQ; left; reflexivity|lia|intros Q; apply (flags_done dn i []); [exact FL|exact Q]|exact S|].
    rewrite A. cbn [obind]. cbv iota beta. specialize (B 1 ltac:(lia)). set (s1 := emit p i 1 (i_count i) (snd (fst c)) (p_set s st)) in *.
    rewrite rest_nil. exists s1, (dn ++ [i]). split; [reflexivity|]. split; [apply Permutation_refl|]. left. exact B.
  - subst cs is. cbn. eexists. exists dn. split; [reflexivity|]. split; [rewrite app_nil_r; apply Permutation_refl|left; exact S].
Qed.
Lemma cases_hole p elems s dn h hc is oth t0 : left_i true true is -> is <> [] -> (length (flags (dn ++ is)) <= 1)%nat -> (forall i j, is = [i; j] -> snd i = false) -> In h (ids hc) ->
  stage p elems s dn [hc] oth t0 -> exists s' dn', cases p [((0, h), true)] is s = Ok s' /\ Permutation dn' (dn ++ is) /\ stage p elems s' dn' [] oth t0.
Proof.
  intros LI NI FL FI IH S. unfold cases. destruct LI as [->|[i [j [-> [I1 I2]]]]]; [congruence|].
  change (case3 p [(0, h, true)] [i; j] s) with (Ok ([(0, h, true)] : list cent, [i; j], s)). cbn [obind]. cbv iota beta. change (case4 p [(0, h, true)] [i; j] s) with (Ok ([(0, h, true)] : list cent, [i; j], s)). cbn [obind]. cbv iota beta.
  change (case5 p [(0, h, true)] s) with (Ok ([(0, h, true)] : list cent, s)). cbn [obind]. cbv iota beta. unfold case6. rewrite nz1 by lia. rewrite nz1 by lia.
  change (vert_below [(0, h, true)]) with (Some (((0, h), true) : cent, @nil cent)). cbv iota beta. cbn [fst snd].
  assert (C : exists st a b, create_pair p false (Some h) (p_st s) = Ok (st, (a, b)) /\ stage p elems (p_set s st) dn [] ((p, -1, b) :: (p, 1, a) :: oth) t0).
  { destruct S as [new [va [E1 [E2 [E3 [E4 E5]]]]]]. destruct (create_hole_ok _ _ (Some h) p _ E4) as [st [a [b [A [B C]]]]]; [exists hc; auto|]. exists st, a, b. split; [exact A|]. exists new, va. repeat (split; [assumption|]).
    cbn [p_set p_st]. split; [eapply Inv_perm; [exact B|apply Permutation_sym, ae_perm_front2]|]. eapply Permutation_trans; [exact C|exact E5]. }
  destruct C as [st [a [b [C1 C2]]]]. rewrite C1. cbn [obind]. cbv iota beta. cbv zeta. cbn [obind]. cbv iota beta. unfold pass_on. change (vert_below []) with (@None (cent * list cent)). cbv iota beta. eexists. exists ((dn ++ [j]) ++ [i]). split; [reflexivity|].
  split; [rewrite <- app_assoc; apply Permutation_app_head; cbn [app]; apply perm_swap|].
  apply new_ok; [|apply (FI i j); reflexivity|reflexivity]. apply emit_ok; [|intros Q; apply (flags_done dn j []); [|exact Q]|reflexivity|lia].
  - rewrite I1, I2. eapply stage_perm; [exact C2|apply perm_swap].
  - rewrite flags_app, flags_cons, app_length in FL |- *. rewrite (flags_cons j) in FL. rewrite (FI i j eq_refl) in FL. exact FL.
Qed.

Lemma stage_init p elems st hl act : Inv st hl act -> stage p elems (mk_ps st elems 0 None) [] hl act (T st).
Proof.
  intros I. exists [], []. cbn [p_elems p_st p_rv p_rc flags filter vrel map app]. split; [rewrite app_nil_r; reflexivity|]. split; [apply Permutation_refl|]. split; [auto|]. split; [exact I|apply Permutation_refl].
Qed.
Lemma result_dn top p elems s dn dn' oth t0 : Permutation dn dn' -> result top p elems s dn [] oth t0 -> result top p elems s dn' [] oth t0.
Proof.
  intros P [R|[R1 R2]]; [left; apply (stage_dn _ _ _ _ _ _ _ _ P R)|right]. rewrite R1 in P. apply Permutation_nil in P. split; [exact P|exact R2].
Qed.
Lemma result_t top p elems s dn oth t0 t1 : Permutation t0 t1 -> result top p elems s dn [] oth t0 -> result top p elems s dn [] oth t1.
Proof.
  intros P [R|[R1 [R2 [R0 [R3 [t [hc [R4 [R5 [R6 [R7 R8]]]]]]]]]]]; [left; apply (stage_t _ _ _ _ _ _ _ _ R P)|right]. split; [exact R1|]. split; [exact R2|]. split; [exact R0|]. split; [exact R3|]. exists t, hc. repeat (split; [assumption|]). eapply Permutation_trans; [exact R8|exact P].
Qed.

(* a vertex where no hole is carried to *)
Theorem process_ok q p cs is elems st top bot oth : alt 1 top (map c_count cs) bot -> alt (-1) bot (map i_count is) top -> last_flag is -> (forall c, In c cs -> q (snd (fst c)) <> p) ->
  Inv st [] (map (cact q) cs ++ oth) -> exists s, process_point p cs is elems st = Ok s /\ result top p elems s is [] oth (map (cdir q p) cs ++ T st).
Proof.
  intros AC AI LF NQ I. destruct (counts_left _ _ _ AC) as [ps [r [E1 [P1 [V1 LC]]]]]. destruct (incoming_left _ _ _ LF AI) as [qs [ri [E2 [P2 [V2 [LI [FI ZI]]]]]]].
  unfold process_point. rewrite E1. cbv zeta.
  assert (NQ' : forall c, In c (flat ps ++ r) -> q (snd (fst c)) <> p) by (intros c C; apply NQ; eapply Permutation_in; [apply Permutation_sym, P1|exact C]).
  assert (I' : Inv st [] (map (cact q) (flat ps) ++ map (cact q) r ++ oth)).
  { eapply Inv_perm; [exact I|]. rewrite app_assoc. rewrite <- map_app. apply Permutation_app_tail, Permutation_map, P1. }
  destruct (case1_ok q p ps elems (mk_ps st elems 0 None) [] (map (cact q) r ++ oth) (T st)) with (2 := stage_init p elems st [] _ I') as [s1 [C1 S1]].
  { intros x y K. destruct (V1 x y K) as [K1 K2]. destruct (flat_in ps x y K) as [K3 K4]. repeat split; [exact K1|exact K2|apply NQ', in_or_app; left; exact K3|apply NQ', in_or_app; left; exact K4]. }
  rewrite C1. cbn [obind]. rewrite E2.
  assert (FLen : (length (flags (flat qs ++ ri)) <= 1)%nat) by (eapply Nat.le_trans; [apply Nat.eq_le_incl, Permutation_length, flags_perm, Permutation_sym, P2|apply last_flag_length, LF]).
  destruct (case2_ok p qs elems s1 [] [] (map (cact q) r ++ oth) (map (cdir q p) (flat ps) ++ T st)) as [s2 [C2 [dn [D1 D2]]]]; [exact V2| |exact S1|].
  { cbn [app]. rewrite flags_app, app_length in FLen. lia. }
  rewrite C2. cbn [obind]. cbn [app] in D1.
  destruct (cases_ok q p elems s2 dn r ri top bot oth (map (cdir q p) (flat ps) ++ T st) LC LI) with (5 := D2) as [s3 [dn' [C3 [D3 D4]]]].
  - intros c C. apply NQ', in_or_app. right. exact C.
  - eapply Nat.le_trans; [|exact FLen]. apply Nat.eq_le_incl, Permutation_length, flags_perm, Permutation_app_tail, D1.
  - intros i j Q. apply (FI) with (2 := Q). intros Q2. rewrite Q2, Q in P2. apply Permutation_nil in P2. destruct (flat qs); discriminate P2.
  - intros Q1 Q2 Q3. pose proof (ZI Q1 Q2 Q3) as Z. rewrite Z in P2. apply Permutation_nil in P2. destruct (app_eq_nil _ _ P2) as [P3 _]. rewrite P3 in D1. apply Permutation_sym, Permutation_nil in D1. exact D1.
  - exists s3. split; [exact C3|]. eapply result_dn; [|eapply result_t; [|exact D4]].
    + eapply Permutation_trans; [exact D3|]. eapply Permutation_trans; [apply Permutation_app_tail, D1|]. apply Permutation_sym, P2.
    + rewrite app_assoc. apply Permutation_app_tail. rewrite <- map_app. apply Permutation_map. eapply Permutation_trans; [apply Permutation_app_comm|apply Permutation_sym, P1].
Qed.
(* a vertex where a hole is carried to *)
Theorem process_hole p h hc is elems st oth : alt (-1) true (map i_count is) true -> is <> [] -> last_flag is -> In h (ids hc) ->
  Inv st [hc] oth -> exists s, process_point p [((0, h), true)] is elems st = Ok s /\ stage p elems s is [] oth (T st).
Proof.
  intros AI NI LF IH I. destruct (incoming_left _ _ _ LF AI) as [qs [ri [E2 [P2 [V2 [LI [FI ZI]]]]]]].
  unfold process_point. change (match_pairs c_count (-1) 1 None [(0, h, true)]) with (@nil (cent * cent), [((0, h), true)] : list cent). cbv zeta. cbv iota beta. cbn [case1 obind]. rewrite E2.
  assert (FLen : (length (flags (flat qs ++ ri)) <= 1)%nat) by (eapply Nat.le_trans; [apply Nat.eq_le_incl, Permutation_length, flags_perm, Permutation_sym, P2|apply last_flag_length, LF]).
  destruct (case2_ok p qs elems (mk_ps st elems 0 None) [] [hc] oth (T st)) as [s2 [C2 [dn [D1 D2]]]]; [exact V2| |apply stage_init, I|].
  { cbn [app]. rewrite flags_app, app_length in FLen. lia. }
  rewrite C2. cbn [obind]. cbn [app] in D1.
  destruct (cases_hole p elems s2 dn h hc ri oth (T st) LI) with (5 := D2) as [s3 [dn' [C3 [D3 D4]]]].
  - intros Q. apply NI, ZI; auto.
  - eapply Nat.le_trans; [|exact FLen]. apply Nat.eq_le_incl, Permutation_length, flags_perm, Permutation_app_tail, D1.
  - apply FI, NI.
  - exact IH.
  - exists s3. split; [exact C3|]. eapply stage_dn; [|exact D4]. eapply Permutation_trans; [exact D3|]. eapply Permutation_trans; [apply Permutation_app_tail, D1|]. apply Permutation_sym, P2.
Qed.
