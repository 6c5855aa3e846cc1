(* The search in the beach line finds the arc above the new site. *)
From Coq Require Import Reals ZArith List Lia Bool.
From Verif Require Import Base Units Outcome Scan90Spec Set90Spec GeoSpec Poly90Model VorSpec VorModel VDModel RobustSpec RobustModel
  VCircleSpec VCircleModel VCircleGeo VCircleProofs VCircleExist VArcSpec VArcModel VArcProofs VNodeSpec VNodeModel.
From Coq Require Import Lra.
Import ListNotations.
Open Scope R_scope.

Lemma point_before_iff p q : point_before p q = true <-> pt_less p q.
Proof. unfold point_before, pt_less. destruct (px p =? px q)%Z eqn:E; lia. Qed.
Lemma cmp_point_start s : inverse_flag s -> cmp_point s = start s.
Proof.
  intros F. unfold cmp_point, start. destruct (point_before (e_p0 s) (e_p1 s)) eqn:B.
  - apply point_before_iff in B. destruct (e_inv s) eqn:I; [|reflexivity].
    destruct (pt_same (e_p0 s) (e_p1 s)) eqn:T; [apply pt_same_iff in T; exact T|].
    assert (N : e_p0 s <> e_p1 s) by (intros E; apply pt_same_iff in E; congruence).
    specialize (F N). rewrite I in F. unfold pt_less in *. lia.
  - destruct (e_inv s) eqn:I; [reflexivity|].
    destruct (pt_same (e_p0 s) (e_p1 s)) eqn:T; [apply pt_same_iff in T; symmetry; exact T|].
    assert (N : e_p0 s <> e_p1 s) by (intros E; apply pt_same_iff in E; congruence).
    specialize (F N). rewrite I in F. apply point_before_iff in F. congruence.
Qed.
Lemma sev_segment_iff s : sev_segment s = true <-> ~ is_point s.
Proof.
  unfold is_point. rewrite <- (sev_point_iff s). destruct (sev_segment s); split; (congruence || intros H; (reflexivity || exfalso; apply H; reflexivity)).
Qed.

Lemma seen_start X l r h : seen_at X l r h -> (px (start l) <= X)%Z /\ (px (start r) <= X)%Z.
Proof.
  intros S. destruct S as [l r h|l r h BL IL NL [O1 [O2 [O3 O4]]]|l r|l r|l r BL IL NL [O1 [O2 [O3 O4]]]]; try lia.
  - assert (E : start r = start l) by (unfold start; rewrite O4, IL; cbn [negb]; exact O2). rewrite E. lia.
  - assert (E : start r = start l) by (unfold start; rewrite O4, IL; cbn [negb]; exact O2). rewrite E. lia.
Qed.

(* ---------- a node and a new key ---------- *)
Section Key.
Variable s : sev.
Hypothesis FS : inverse_flag s.
Hypothesis IS : e_inv s = false.
Let X := px (start s).
Let y := IZR (py (start s)).
(* the new bisectors compare with older nodes like the key *)
Definition is_new (k : node) : Prop :=
  px (cmp_point (cmp_site k)) = X /\ py (cmp_point (cmp_site k)) = py (start s) /\ e_sorted (cmp_site k) = e_sorted s /\ fst (cmp_y k true) = py (start s).
Lemma start_s : start s = e_p0 s.
Proof. unfold start. rewrite IS. reflexivity. Qed.
Lemma new_key_new : is_new (new_key s).
Proof.
  unfold is_new, cmp_site, cmp_y, new_key. cbn [n_left n_right]. rewrite Nat.ltb_irrefl, Nat.eqb_refl.
  rewrite (cmp_point_start s FS). cbn [fst]. unfold sy0. rewrite <- start_s. repeat split.
Qed.
Lemma inverse_flag_inverse : inverse_flag (sev_inverse s).
Proof.
  intros N. unfold sev_inverse in *. cbn [e_p0 e_p1 e_inv] in *. assert (N' : e_p0 s <> e_p1 s) by congruence.
  specialize (FS N'). rewrite IS in *. exact FS.
Qed.
Lemma start_inverse : start (sev_inverse s) = start s.
Proof. unfold start, sev_inverse. cbn [e_inv e_p0 e_p1]. rewrite IS. reflexivity. Qed.
Lemma new_left_new a : (e_sorted a < e_sorted s)%nat -> is_new (new_left_key a s).
Proof.
  intros H. unfold is_new, cmp_site, cmp_y, new_left_key. cbn [n_left n_right].
  destruct (Nat.ltb_spec (e_sorted s) (e_sorted a)); [lia|]. destruct (Nat.eqb_spec (e_sorted a) (e_sorted s)); [lia|].
  rewrite (cmp_point_start s FS). cbn [fst]. unfold sy0. rewrite <- start_s. repeat split.
Qed.
Lemma new_mid_new : is_new (new_mid_key s).
Proof.
  unfold is_new, cmp_site, cmp_y, new_mid_key. cbn [n_left n_right]. change (e_sorted (sev_inverse s)) with (e_sorted s). rewrite Nat.ltb_irrefl, Nat.eqb_refl.
  rewrite (cmp_point_start _ inverse_flag_inverse), start_inverse. cbn [fst]. unfold sy0. rewrite <- start_s. repeat split.
Qed.
Lemma new_right_new b : (e_sorted b < e_sorted s)%nat -> is_new (new_right_key s b).
Proof.
  intros H. unfold is_new, cmp_site, cmp_y, new_right_key. cbn [n_left n_right].
  assert (ES : e_sorted (if sev_segment s then sev_inverse s else s) = e_sorted s) by (destruct (sev_segment s); reflexivity).
  rewrite ES. destruct (Nat.ltb_spec (e_sorted b) (e_sorted s)); [|lia]. destruct (Nat.eqb_spec (e_sorted s) (e_sorted b)); [lia|].
  cbn [negb andb fst]. rewrite ES. destruct (sev_segment s) eqn:SS.
  - rewrite (cmp_point_start _ inverse_flag_inverse), start_inverse. unfold sy1, sev_inverse. cbn [e_p1]. rewrite <- start_s. repeat split.
  - rewrite (cmp_point_start s FS). apply sev_point_iff in SS. unfold sy1. rewrite <- SS, <- start_s. repeat split.
Qed.
(* one of two different nodes is less than the other *)
Lemma node_side n k h : is_new k -> (e_sorted (n_left n) < e_sorted s)%nat -> (e_sorted (n_right n) < e_sorted s)%nat ->
  inverse_flag (n_left n) -> inverse_flag (n_right n) -> seen_at X (n_left n) (n_right n) h ->
  exists v, node_less n k = Some v /\ node_less k n = Some (negb v) /\ (v = true -> h <= y) /\ (v = false -> y <= h).
Proof.
  destruct n as [id l r ed ci]. cbn [n_left n_right]. intros [KX [KP [KS KY]]] OL OR FL FR SE.
  assert (PE : cmp_point (cmp_site k) = start s) by (destruct (cmp_point (cmp_site k)) as [u w], (start s) as [u' w'] eqn:ST; cbn [px py] in *; unfold X in KX; rewrite ?ST in *; cbn [px] in *; congruence).
  set (n := mk_node id l r ed ci).
  assert (CS : forall v, px (start (cmp_site n)) = v -> px (cmp_point (cmp_site n)) = v).
  { intros v. rewrite cmp_point_start; [auto|]. unfold cmp_site, n. cbn [n_left n_right]. destruct (_ <? _)%nat; assumption. }
  assert (SN : (e_sorted (cmp_site n) < e_sorted s)%nat) by (unfold cmp_site, n; cbn [n_left n_right]; destruct (_ <? _)%nat; assumption).
  (* before the sweep line *)
  assert (BEF : (px (start (cmp_site n)) < X)%Z -> forall v, distance_predicate l r (start s) = Some v -> node_less n k = Some v /\ node_less k n = Some (negb v)).
  { intros B v E. unfold node_less. rewrite PE, (CS _ eq_refl). fold X. cbn [n_left n_right n]. fold n. rewrite E. cbn [bind].
    destruct (Z.ltb_spec (px (start (cmp_site n))) X); [|lia]. split; [reflexivity|].
    destruct (Z.ltb_spec X (px (start (cmp_site n)))); [lia|]. destruct (Z.gtb_spec X (px (start (cmp_site n)))); [reflexivity|lia]. }
  (* on the sweep line *)
  assert (ON : px (start (cmp_site n)) = X -> forall c d, cmp_y n false = (c, d) -> IZR c = h -> d <> 0%Z \/ sev_segment (cmp_site n) = true ->
    exists v, node_less n k = Some v /\ node_less k n = Some (negb v) /\ (v = true -> h <= y) /\ (v = false -> y <= h)).
  { intros B c d EY EC ED. unfold node_less. rewrite PE, (CS _ B), KS, KY. fold X. rewrite EY. cbn [fst snd].
    destruct (Z.ltb_spec X X); [lia|]. destruct (Z.gtb_spec X X); [lia|].
    destruct (Nat.eqb_spec (e_sorted (cmp_site n)) (e_sorted s)); [lia|]. destruct (Nat.eqb_spec (e_sorted s) (e_sorted (cmp_site n))); [lia|].
    destruct (Nat.ltb_spec (e_sorted (cmp_site n)) (e_sorted s)); [|lia]. destruct (Nat.ltb_spec (e_sorted s) (e_sorted (cmp_site n))); [lia|].
    eexists. split; [reflexivity|]. unfold y. rewrite <- EC. destruct (Z.eqb_spec c (py (start s))) as [E|E]; cbn [negb].
    - rewrite E, Z.eqb_refl. cbn [negb]. split; [|split; intros _; apply Rle_refl].
      destruct (sev_segment (cmp_site n)) eqn:SG; cbn [negb]; [reflexivity|]. destruct ED as [ED|ED]; [|discriminate]. apply f_equal. lia.
    - destruct (Z.eqb_spec (py (start s)) c) as [E'|_]; [congruence|]. cbn [negb]. split; [apply f_equal; lia|].
      split; intros V; apply IZR_le; lia. }
  inversion SE as [l' r' h' BL BR NI HL HR BP E1 E2 E3 | l' r' h' BL IL NL OS NV CR E1 E2 E3 | l' r' LR BR BL IR E1 E2 E3 | l' r' LR BL BR IL E1 E2 E3 | l' r' BL IL NL OS E1 E2 E3]; subst l' r'; try subst h'.
  - assert (EX : X = px (start s)) by reflexivity. rewrite EX in HL, HR, BP.
    destruct (predicate_ok l r (start s) h HL HR FL FR (fun _ _ => NI) BP) as [v [E [V1 V2]]].
    exists v. destruct (BEF ltac:(unfold cmp_site, n; cbn [n_left n_right]; destruct (_ <? _)%nat; assumption) v E) as [G1 G2].
    split; [exact G1|]. split; [exact G2|]. fold y in V1, V2.
    destruct (sev_segment l) eqn:SL; [apply sev_segment_iff in SL|apply sev_point_iff in SL];
      (destruct (sev_segment r) eqn:SR; [apply sev_segment_iff in SR|apply sev_point_iff in SR]); unfold is_point in *.
    all: assert (VV : (v = true <-> h < y) \/ (v = true <-> h <= y)) by tauto.
    all: destruct VV as [VV|VV]; (split; [intros Q; apply VV in Q; lra|intros Q; apply Rnot_lt_le; intros K; assert (v = true) by (apply VV; lra); congruence]).
  - destruct OS as [O1 [O2 [O3 O4]]].
    assert (ER : start r = start l) by (unfold start; rewrite O4, IL; cbn [negb]; exact O2).
    assert (HL : has_arc (e_p0 l) (e_p1 l) (IZR (px (start s)))) by (split; [intros E; contradiction|intros _ E; contradiction]).
    destruct (dist_arc _ _ _ y HL) as [AD _].
    destruct (same_ok l r (start s) _ (eq_sym O3) NL HL AD) as [v [E V]].
    assert (E' : distance_predicate l r (start s) = Some v).
    { unfold distance_predicate. rewrite (proj2 (sev_segment_iff l) NL).
      rewrite (proj2 (sev_segment_iff r)) by (unfold is_point; rewrite O1, O2; congruence). exact E. }
    exists v. destruct (BEF ltac:(unfold cmp_site, n; cbn [n_left n_right]; destruct (_ <? _)%nat; [|rewrite ER]; assumption) v E') as [G1 G2].
    split; [exact G1|]. split; [exact G2|].
    assert (VV : v = true <-> h < y).
    { rewrite V. unfold dist. destruct (pt_same (e_p0 l) (e_p1 l)) eqn:T; [apply pt_same_iff in T; contradiction|].
      unfold ds. assert (VL : px (e_p0 l) = px (e_p1 l) -> (py (e_p0 l) < py (e_p1 l))%Z) by (intros Q; contradiction).
      pose proof (den_pos _ _ VL) as P. set (k' := len (e_p0 l) (e_p1 l) + (IZR (py (e_p1 l)) - IZR (py (e_p0 l)))) in *.
      assert (PA : 0 < IZR (px (e_p1 l)) - IZR (px (e_p0 l))).
      { specialize (FL NL). rewrite IL in FL. destruct FL as [F|[F _]]; [|contradiction]. apply IZR_lt in F. lra. }
      unfold rcross, rsub, of_pt in CR. cbn [rx ry] in CR. fold X. set (a := IZR (px (e_p1 l)) - IZR (px (e_p0 l))) in *.
      replace (a * (y - IZR (py (e_p0 l))) - (IZR (py (e_p1 l)) - IZR (py (e_p0 l))) * (IZR X - IZR (px (e_p0 l)))) with (a * (y - h)) by lra.
      assert (PI : 0 < / k') by (apply Rinv_0_lt_compat; exact P). unfold Rdiv. split; intros Q.
      - apply Rnot_le_lt. intros K. assert (0 <= a * (h - y) * / k') by (apply Rmult_le_pos; [apply Rmult_le_pos; lra|lra]). lra.
      - apply mul_pp; [apply mul_pp; lra|exact PI]. }
    split; [intros Q; apply VV in Q; lra|intros Q; apply Rnot_lt_le; intros K; assert (v = true) by (apply VV; lra); congruence].
  - assert (C : cmp_site n = r) by (unfold cmp_site, n; cbn [n_left n_right]; destruct (Nat.ltb_spec (e_sorted r) (e_sorted l)); [lia|reflexivity]).
    assert (SR : start r = e_p0 r) by (unfold start; rewrite IR; reflexivity). rewrite C in ON. subst h.
    apply (ON BR (sy0 r) (-1)%Z); [|unfold sy0; rewrite SR; reflexivity|left; discriminate].
    unfold cmp_y, n. cbn [n_left n_right]. destruct (Nat.eqb_spec (e_sorted l) (e_sorted r)); [lia|]. destruct (Nat.ltb_spec (e_sorted r) (e_sorted l)); [lia|reflexivity].
  - assert (C : cmp_site n = l) by (unfold cmp_site, n; cbn [n_left n_right]; destruct (Nat.ltb_spec (e_sorted r) (e_sorted l)); [reflexivity|lia]).
    rewrite C in ON. subst h. apply (ON BL (if sev_segment l && sev_vertical l then sy0 l else sy1 l) 1%Z); [| |left; discriminate].
    + unfold cmp_y, n. cbn [n_left n_right]. destruct (Nat.eqb_spec (e_sorted l) (e_sorted r)); [lia|]. destruct (Nat.ltb_spec (e_sorted r) (e_sorted l)); [|lia].
      cbn [negb andb]. destruct (sev_segment l && sev_vertical l); reflexivity.
    + apply f_equal. destruct (sev_segment l) eqn:SG.
      * apply sev_segment_iff in SG. specialize (IL SG). unfold start, finish in *. rewrite IL in *. cbn [andb]. unfold sev_vertical, sy0, sy1. rewrite <- BL.
        destruct (px (e_p0 l) =? px (e_p1 l))%Z; reflexivity.
      * cbn [andb]. apply sev_point_iff in SG. unfold start, finish, sy1. rewrite <- SG. clear. destruct (e_inv l); match goal with |- context [if ?c then _ else _] => destruct c end; reflexivity.
  - destruct OS as [O1 [O2 [O3 O4]]].
    assert (ER : start r = start l) by (unfold start; rewrite O4, IL; cbn [negb]; exact O2).
    assert (C : cmp_site n = r) by (unfold cmp_site, n; cbn [n_left n_right]; destruct (Nat.ltb_spec (e_sorted r) (e_sorted l)); [lia|reflexivity]).
    rewrite C in ON. rewrite ER in ON. subst h. apply (ON BL (sy0 l) 0%Z).
    + unfold cmp_y, n. cbn [n_left n_right]. rewrite O3, Nat.eqb_refl. reflexivity.
    + unfold start, sy0. rewrite IL. reflexivity.
    + right. apply sev_segment_iff. unfold is_point. rewrite O1, O2. intros Q. apply NL. symmetry. exact Q.
Qed.
(* the new bisectors among themselves *)
Lemma new_order a b : (e_sorted a < e_sorted s)%nat -> (e_sorted b < e_sorted s)%nat ->
  let nl := new_left_key a s in let nm := new_mid_key s in let nr := new_right_key s b in
  node_less nl nr = Some true /\ node_less nr nl = Some false /\ node_less nl nm = Some true /\ node_less nm nl = Some false /\
  node_less nm nr = Some true /\ node_less nr nm = Some false.
Proof.
  intros HA HB nl nm nr.
  assert (YL : cmp_y nl true = (py (start s), -1)%Z).
  { unfold cmp_y, nl, new_left_key. cbn [n_left n_right]. destruct (Nat.eqb_spec (e_sorted a) (e_sorted s)); [lia|]. destruct (Nat.ltb_spec (e_sorted s) (e_sorted a)); [lia|].
    unfold sy0. rewrite start_s. reflexivity. }
  assert (YM : cmp_y nm true = (py (start s), 0)%Z).
  { unfold cmp_y, nm, new_mid_key. cbn [n_left n_right]. change (e_sorted (sev_inverse s)) with (e_sorted s). rewrite Nat.eqb_refl. unfold sy0. rewrite start_s. reflexivity. }
  assert (YR : cmp_y nr true = (py (start s), 1)%Z).
  { destruct (new_right_new b HB) as [_ [_ [_ K]]]. fold nr in K. rewrite <- K. revert K. unfold cmp_y, nr, new_right_key. cbn [n_left n_right].
    assert (ES : e_sorted (if sev_segment s then sev_inverse s else s) = e_sorted s) by (destruct (sev_segment s); reflexivity). rewrite ES.
    destruct (Nat.eqb_spec (e_sorted s) (e_sorted b)); [lia|]. destruct (Nat.ltb_spec (e_sorted b) (e_sorted s)); [|lia]. reflexivity. }
  assert (TI : forall k1 k2, is_new k1 -> is_new k2 -> node_less k1 k2 = Some (pair_less (cmp_y k1 true) (cmp_y k2 true))).
  { intros k1 k2 [X1 [_ [S1 _]]] [X2 [_ [S2 _]]]. unfold node_less. rewrite X1, X2, S1, S2, Nat.eqb_refl.
    destruct (Z.ltb_spec X X); [lia|]. destruct (Z.gtb_spec X X); [lia|]. reflexivity. }
  pose proof (new_left_new a HA) as NL. pose proof new_mid_new as NM. pose proof (new_right_new b HB) as NR. fold nl in NL. fold nm in NM. fold nr in NR.
  rewrite !TI by assumption. rewrite YL, YM, YR. unfold pair_less. cbn [fst snd]. rewrite Z.eqb_refl, Z.ltb_irrefl. cbn. repeat split.
Qed.
End Key.

(* ---------- the search ---------- *)
Definition first_of (found : option node) (l : list node) : option node := match l with [] => found | n :: _ => Some n end.
Lemma lower_bound_ok k : forall t found, (forall n, In n (in_order t) -> exists v, node_less n k = Some v) ->
  exists pre post, in_order t = pre ++ post /\ lower_bound t k found = Some (first_of found post) /\
    (forall p n, pre = p ++ [n] -> node_less n k = Some true) /\ (forall n q, post = n :: q -> node_less n k = Some false).
Proof.
  induction t as [|l IHl n r IHr]; intros found H.
  - exists [], []. cbn. repeat split; [intros p n E; destruct p; discriminate|discriminate].
  - cbn [in_order] in H. destruct (H n) as [v E]; [apply in_or_app; right; left; reflexivity|].
    cbn [lower_bound in_order]. rewrite E. cbn [bind]. destruct v.
    + destruct (IHr found) as [pre [post [E1 [E2 [E3 E4]]]]]; [intros m I; apply H; apply in_or_app; right; right; exact I|].
      exists (in_order l ++ n :: pre), post. rewrite E1, <- app_assoc. split; [reflexivity|]. split; [exact E2|]. split; [|exact E4].
      intros p m Q. destruct pre as [|a pre] using rev_ind; [apply app_inj_tail in Q as [_ Q]; congruence|].
      clear IHpre. change (n :: pre ++ [a]) with ((n :: pre) ++ [a]) in Q. rewrite app_assoc in Q. apply app_inj_tail in Q as [_ Q]. subst m. apply (E3 pre a eq_refl).
    + destruct (IHl (Some n)) as [pre [post [E1 [E2 [E3 E4]]]]]; [intros m I; apply H; apply in_or_app; left; exact I|].
      exists pre, (post ++ n :: in_order r). rewrite E1, <- app_assoc. split; [reflexivity|]. split; [|split; [exact E3|]].
      * rewrite E2. destruct post; reflexivity.
      * intros m q Q. destruct post as [|a post]; [cbn in Q; injection Q as <- _; exact E|]. cbn in Q. injection Q as <- _. apply (E4 a post eq_refl).
Qed.
Lemma forall2_len {A B : Type} (P : A -> B -> Prop) l l' : Forall2 P l l' -> length l = length l'.
Proof. intros H. induction H; cbn; congruence. Qed.
Lemma search_ok s t hs : inverse_flag s -> e_inv s = false ->
  (forall n, In n (in_order t) -> (e_sorted (n_left n) < e_sorted s)%nat /\ (e_sorted (n_right n) < e_sorted s)%nat /\ inverse_flag (n_left n) /\ inverse_flag (n_right n)) ->
  Forall2 (fun n h => seen_at (px (start s)) (n_left n) (n_right n) h) (in_order t) hs ->
  (forall i j a b, (i <= j)%nat -> nth_error hs i = Some a -> nth_error hs j = Some b -> a <= b) ->
  exists i, lower_bound t (new_key s) None = Some (nth_error (in_order t) i) /\ (i <= length (in_order t))%nat /\
    (forall j h, nth_error hs j = Some h -> if (j <? i)%nat then h <= IZR (py (start s)) else IZR (py (start s)) <= h) /\
    (forall n, (i = S n)%nat -> exists m, nth_error (in_order t) n = Some m /\ node_less m (new_key s) = Some true) /\
    (forall m, nth_error (in_order t) i = Some m -> node_less m (new_key s) = Some false).
Proof.
  intros FS IS OLD SEEN SORT.
  assert (SIDE : forall n h, In n (in_order t) -> seen_at (px (start s)) (n_left n) (n_right n) h ->
    exists v, node_less n (new_key s) = Some v /\ (v = true -> h <= IZR (py (start s))) /\ (v = false -> IZR (py (start s)) <= h)).
  { intros n h I S. destruct (OLD n I) as [O1 [O2 [O3 O4]]]. destruct (node_side s IS n (new_key s) h (new_key_new s FS IS) O1 O2 O3 O4 S) as [v [V1 [_ [V2 V3]]]].
    exists v. auto. }
  assert (HT : forall i n, nth_error (in_order t) i = Some n -> exists h, nth_error hs i = Some h /\ seen_at (px (start s)) (n_left n) (n_right n) h).
  { revert SEEN. clear. intros SEEN. induction SEEN as [|n h l l' S _ IH]; intros i m E; [destruct i; discriminate|].
    destruct i; cbn in E; [injection E as <-; exists h; cbn; auto|]. apply IH. exact E. }
  destruct (lower_bound_ok (new_key s) t None) as [pre [post [E1 [E2 [E3 E4]]]]].
  { intros n I. apply In_nth_error in I as [i E]. destruct (HT i n E) as [h [_ S]]. destruct (SIDE n h (nth_error_In _ _ E) S) as [v [V _]]. exists v. exact V. }
  assert (NP : forall n, post = n :: tl post -> nth_error (in_order t) (length pre) = Some n).
  { intros n Q. rewrite E1, Q, nth_error_app2, Nat.sub_diag by lia. reflexivity. }
  assert (NQ : forall p n, pre = p ++ [n] -> nth_error (in_order t) (length pre - 1) = Some n).
  { intros p n Q. rewrite E1, Q, app_length. cbn [length]. replace (length p + 1 - 1)%nat with (length p) by lia. rewrite <- app_assoc, nth_error_app2, Nat.sub_diag by lia. reflexivity. }
  exists (length pre). split; [|split; [rewrite E1, app_length; lia|split; [|split]]].
  - rewrite E2. apply f_equal. destruct post as [|n q]; [rewrite E1, app_nil_r; symmetry; apply nth_error_None; lia|]. symmetry. apply NP. reflexivity.
  - intros j h EJ. destruct (Nat.ltb_spec j (length pre)) as [LT|GE].
    + destruct pre as [|n p _] using rev_ind; [cbn in LT; lia|]. specialize (E3 p n eq_refl). specialize (NQ p n eq_refl).
      rewrite app_length in *. cbn [length] in *. replace (length p + 1 - 1)%nat with (length p) in NQ by lia.
      destruct (HT _ _ NQ) as [h' [EH S]]. destruct (SIDE n h' (nth_error_In _ _ NQ) S) as [v [V [V1 _]]]. rewrite E3 in V. injection V as <-.
      apply Rle_trans with h'; [apply (SORT j (length p)); [lia|assumption|assumption]|apply V1; reflexivity].
    + destruct post as [|n q].
      * exfalso. assert (nth_error hs j <> None) as NN by congruence. apply nth_error_Some in NN. apply forall2_len in SEEN. rewrite E1, app_nil_r in SEEN. lia.
      * specialize (E4 n q eq_refl). specialize (NP n eq_refl). destruct (HT _ _ NP) as [h' [EH S]].
        destruct (SIDE n h' (nth_error_In _ _ NP) S) as [v [V [_ V2]]]. rewrite E4 in V. injection V as <-.
        apply Rle_trans with h'; [apply V2; reflexivity|apply (SORT (length pre) j); assumption].
  - intros m Q. destruct pre as [|n p _] using rev_ind; [discriminate|]. rewrite app_length in *. cbn [length] in *. exists n. split; [|apply (E3 p n eq_refl)].
    specialize (NQ p n eq_refl). replace (length p + 1 - 1)%nat with m in NQ by lia. exact NQ.
  - intros m Q. destruct post as [|n q]; [rewrite E1, app_nil_r in Q; assert (NN : nth_error pre (length pre) <> None) by congruence; apply nth_error_Some in NN; lia|].
    rewrite (NP n eq_refl) in Q. injection Q as <-. apply (E4 n q eq_refl).
Qed.
