(* Around a vertex: the depths between its edges alternate. *)
From Verif Require Import Base Units Outcome Scan90Spec Poly90Spec Poly90Model Poly90Proofs GeoSpec IvlModel RectModel SegModel PolySpec PolyModel PolyEdge ScanBaseModel ScanBaseOab SnapModel SnapSpec SnapProofs SnapLoops ArbSpec ArbOrder ArbSums ArbModel ArbMaps ArbLess ArbLine ArbColumn ArbBool ArbSetModel ArbSetProofs ArbSetCor ArbFormSpec ArbFormModel ArbFormChains ArbFormPoint.
From Coq Require Import Reals Lra Sorting.Sorted Sorting.Permutation.

Definition b01 (z : Z) : Prop := z = 0 \/ z = 1.
Fixpoint steps (b v : Z) (cs : list Z) (w : Z) : Prop :=
  match cs with [] => v = w | c :: cs' => (c = 1 \/ c = -1) /\ b01 (v - b * c) /\ steps b (v - b * c) cs' w end.
Lemma steps_alt b v cs : forall w, b = 1 \/ b = -1 -> b01 v -> steps b v cs w -> alt b (v =? 1) cs (w =? 1).
Proof.
  revert v. induction cs as [|c cs IH]; intros v w B V S; cbn [steps alt] in *; [subst w; reflexivity|]. destruct S as [C [V' S]]. specialize (IH _ w B V' S).
  split; [unfold b01 in *; destruct (Z.eqb_spec v 1); nia|]. replace (negb (v =? 1)) with (v - b * c =? 1); [exact IH|]. unfold b01 in *. destruct (Z.eqb_spec v 1), (Z.eqb_spec (v - b * c) 1); cbn [negb]; try reflexivity; exfalso; nia.
Qed.
Lemma steps_app b v cs ds u w : steps b v cs u -> steps b u ds w -> steps b v (cs ++ ds) w.
Proof. revert v. induction cs as [|c cs IH]; intros v A B; cbn [steps app] in *; [subst u; exact B|]. destruct A as [A1 [A2 A3]]. split; [exact A1|]. split; [exact A2|]. apply IH; assumption. Qed.
Lemma steps_rev v cs : forall w, b01 v -> steps (-1) v cs w -> steps 1 w (rev cs) v.
Proof.
  revert v. induction cs as [|c cs IH]; intros v w V S; cbn [steps rev] in *; [auto|]. destruct S as [C [V' S]]. apply (steps_app _ _ _ _ (v - -1 * c)); [apply IH; assumption|]. cbn [steps]. split; [exact C|].
  replace (v - -1 * c - 1 * c) with v by ring. split; [exact V|reflexivity].
Qed.
Lemma chain_steps (ow cb : seg -> Z) m : forall D, (forall e, In e m -> (ow e = 1 \/ ow e = -1) /\ b01 (cb e + ow e)) -> (forall e m', m = e :: m' -> cb e = D) ->
  (forall a e f b, m = a ++ e :: f :: b -> cb f = cb e + ow e) -> steps (-1) D (map ow m) (D + tot ow m).
Proof.
  induction m as [|e m IH]; intros D H F N; cbn [map steps tot]; [lia|]. destruct (H e (or_introl eq_refl)) as [H1 H2]. pose proof (F e m eq_refl) as F1. split; [exact H1|]. replace (D - -1 * ow e) with (cb e + ow e) by lia.
  split; [exact H2|]. replace (D + (ow e + tot ow m)) with (cb e + ow e + tot ow m) by lia. apply IH.
  - intros f K. apply H. right. exact K.
  - intros f m' ->. apply (N [] e f m'). reflexivity.
  - intros a f g b ->. apply (N (e :: a) f g b). reflexivity.
Qed.

(* ---------- sorting ---------- *)
Section sort.
  Context {A : Type} (less : A -> A -> outcome bool) (R le : A -> A -> Prop).
  Lemma o_insert_ok a l : (forall b, In b l -> exists c, less b a = Ok c /\ (c = true <-> R b a)) -> (forall b, In b l -> R b a -> le b a) -> (forall b, In b l -> ~ R b a -> le a b) ->
    (forall b c, In b l -> In c l -> le a b -> le b c -> le a c) -> StronglySorted le l -> exists l', o_insert less a l = Ok l' /\ Permutation (a :: l) l' /\ StronglySorted le l'.
  Proof.
    induction l as [|b l IH]; intros H1 H2 H3 H4 S; [exists [a]; split; [reflexivity|]; split; [apply Permutation_refl|constructor; constructor]|].
    cbn [o_insert]. destruct (H1 b (or_introl eq_refl)) as [c [C1 C2]]. rewrite C1. cbn [obind]. apply StronglySorted_inv in S as [S F]. destruct c.
    - destruct IH as [l' [I1 [I2 I3]]]; [intros d D; apply H1; right; exact D|intros d D; apply H2; right; exact D|intros d D; apply H3; right; exact D|intros d e D K; apply H4; right; assumption|exact S|].
      rewrite I1. cbn [obind]. exists (b :: l'). split; [reflexivity|]. split; [eapply Permutation_trans; [apply perm_swap|apply perm_skip, I2]|]. constructor; [exact I3|]. rewrite Forall_forall in *. intros d D. eapply Permutation_in in D; [|apply Permutation_sym, I2].
      destruct D as [<-|D]; [apply H2; [left; reflexivity|apply C2; reflexivity]|apply F, D].
    - exists (a :: b :: l). split; [reflexivity|]. split; [apply Permutation_refl|]. assert (LE : le a b) by (apply H3; [left; reflexivity|intros K; apply C2 in K; discriminate]).
      constructor; [constructor; assumption|]. rewrite Forall_forall in *. intros d [<-|D]; [exact LE|]. apply (H4 b d); [left; reflexivity|right; exact D|exact LE|apply F, D].
  Qed.
  Lemma o_sort_ok l : (forall a b, In a l -> In b l -> exists c, less b a = Ok c /\ (c = true <-> R b a)) -> (forall a b, In a l -> In b l -> R b a -> le b a) -> (forall a b, In a l -> In b l -> ~ R b a -> le a b) ->
    (forall a b c, In a l -> In b l -> In c l -> le a b -> le b c -> le a c) -> exists l', o_sort less l = Ok l' /\ Permutation l l' /\ StronglySorted le l'.
  Proof.
    induction l as [|a l IH]; intros H1 H2 H3 H4; [exists []; split; [reflexivity|]; split; [apply Permutation_refl|constructor]|].
    destruct IH as [l' [I1 [I2 I3]]]; [intros b c B C; apply H1; right; assumption|intros b c B C; apply H2; right; assumption|intros b c B C; apply H3; right; assumption|intros b c d B C D; apply H4; right; assumption|].
    assert (IN : forall b, In b l' -> In b (a :: l)) by (intros b B; right; eapply Permutation_in; [apply Permutation_sym, I2|exact B]).
    cbn [o_sort]. rewrite I1. cbn [obind]. destruct (o_insert_ok a l') as [m [M1 [M2 M3]]].
    - intros b B. apply H1; [left; reflexivity|apply IN, B].
    - intros b B. apply H2; [left; reflexivity|apply IN, B].
    - intros b B. apply H3; [left; reflexivity|apply IN, B].
    - intros b c B C. apply H4; [left; reflexivity|apply IN, B|apply IN, C].
    - exact I3.
    - exists m. split; [exact M1|]. split; [eapply Permutation_trans; [apply perm_skip, I2|exact M2]|exact M3].
  Qed.
End sort.
Lemma strict_sorted {A : Type} (R : A -> A -> Prop) l : NoDup l -> StronglySorted (fun a b => a = b \/ R a b) l -> StronglySorted R l.
Proof.
  induction l as [|a l IH]; intros N S; [constructor|]. inversion N as [|? ? N1 N2]; subst. apply StronglySorted_inv in S as [S F]. constructor; [apply IH; assumption|]. rewrite Forall_forall in *. intros b B. destruct (F b B) as [<-|K]; [contradiction|exact K].
Qed.
Lemma o_sort_strict {A : Type} (less : A -> A -> outcome bool) (R : A -> A -> Prop) l : NoDup l -> (forall a b, In a l -> In b l -> exists c, less b a = Ok c /\ (c = true <-> R b a)) ->
  (forall a b, In a l -> In b l -> a = b \/ R a b \/ R b a) -> (forall a b c, In a l -> In b l -> In c l -> R a b -> R b c -> R a c) -> exists l', o_sort less l = Ok l' /\ Permutation l l' /\ StronglySorted R l'.
Proof.
  intros N H1 H2 H3. destruct (o_sort_ok less R (fun a b => a = b \/ R a b) l H1) as [l' [A1 [A2 A3]]].
  - intros a b _ _ K. right. exact K.
  - intros a b Ia Ib K. destruct (H2 a b Ia Ib) as [Q|[Q|Q]]; [left; exact Q|right; exact Q|contradiction].
  - intros a b c Ia Ib Ic [<-|K] [<-|L]; auto. right. apply (H3 a b c); assumption.
  - exists l'. split; [exact A1|]. split; [exact A2|]. apply strict_sorted; [eapply Permutation_NoDup; [exact A2|exact N]|exact A3].
Qed.

(* ---------- slopes ---------- *)
Lemma slope_cmp (a b c d : R) : (0 < b -> 0 < d -> (a / b < c / d <-> a * d < c * b))%R.
Proof.
  intros B D. assert (E1 : (a / b * (b * d) = a * d)%R) by (field; lra). assert (E2 : (c / d * (b * d) = c * b)%R) by (field; lra). assert (BD : (0 < b * d)%R) by (apply Rmult_lt_0_compat; assumption).
  split; intros H; [apply (Rmult_lt_compat_r (b * d)) in H; [|exact BD]; lra|]. apply (Rmult_lt_reg_r (b * d)); [exact BD|]. lra.
Qed.
Definition dx (e : seg) : Z := px (s_high e) - px (s_low e).
Definition dy (e : seg) : Z := py (s_high e) - py (s_low e).
Lemma slope_z e f : 0 < dx e -> 0 < dx f -> ((IZR (dy e) / IZR (dx e) < IZR (dy f) / IZR (dx f))%R <-> dy e * dx f < dy f * dx e).
Proof.
  intros A B. rewrite slope_cmp by (apply IZR_lt; assumption). rewrite <- !mult_IZR. split; [apply lt_IZR|apply IZR_lt].
Qed.
Lemma height_slope_l e x : height e x = (IZR (py (s_low e)) + (x - IZR (px (s_low e))) * (IZR (dy e) / IZR (dx e)))%R.
Proof. unfold height, dx, dy. rewrite !minus_IZR. reflexivity. Qed.
Lemma height_slope_h e x : 0 < dx e -> height e x = (IZR (py (s_high e)) - (IZR (px (s_high e)) - x) * (IZR (dy e) / IZR (dx e)))%R.
Proof.
  intros A. rewrite height_slope_l. assert (K : (IZR (dx e) <> 0)%R) by (apply not_0_IZR; lia). assert (E : (IZR (dx e) * (IZR (dy e) / IZR (dx e)) = IZR (dy e))%R) by (field; exact K).
  set (s := (IZR (dy e) / IZR (dx e))%R) in *. unfold dx, dy in E. rewrite !minus_IZR in E. lra.
Qed.
Lemma same_low_lte E e f : noded E -> (forall s, In s E -> ordered s) -> In e E -> In f E -> s_low e = s_low f -> 0 < dx e -> 0 < dx f -> (lte e f <-> dy e * dx f < dy f * dx e).
Proof.
  intros nod ord He Hf Q A B. rewrite <- slope_z by assumption. set (n := px (s_low e)).
  assert (I : inr e (IZR n + / 2)) by (unfold dx in A; split; [apply izr_half_lt|apply izr_half_gt]; unfold n; lia).
  assert (J : inr f (IZR n + / 2)) by (unfold dx in B; split; [apply izr_half_lt|apply izr_half_gt]; unfold n; rewrite Q; lia).
  assert (S : lte e f <-> (height e (IZR n + / 2) < height f (IZR n + / 2))%R) by (split; [intros H; apply (lte_at E nod ord e f); assumption|intros H; exists (IZR n + / 2)%R; auto]).
  rewrite S, !height_slope_l, <- Q. fold n. split; intros H; lra.
Qed.
Lemma same_high_lte E e f : noded E -> (forall s, In s E -> ordered s) -> In e E -> In f E -> s_high e = s_high f -> 0 < dx e -> 0 < dx f -> (lte f e <-> dy e * dx f < dy f * dx e).
Proof.
  intros nod ord He Hf Q A B. rewrite <- slope_z by assumption. set (n := px (s_high e)). 
  assert (I : inr e (IZR (n - 1) + / 2)) by (unfold dx in A; split; [apply izr_half_lt|apply izr_half_gt]; unfold n; lia).
  assert (J : inr f (IZR (n - 1) + / 2)) by (unfold dx in B; split; [apply izr_half_lt|apply izr_half_gt]; unfold n; rewrite Q; lia).
  assert (S : lte f e <-> (height f (IZR (n - 1) + / 2) < height e (IZR (n - 1) + / 2))%R) by (split; [intros H; apply (lte_at E nod ord f e); assumption|intros H; exists (IZR (n - 1) + / 2)%R; auto]).
  rewrite S, !height_slope_h by assumption. rewrite <- Q. fold n. rewrite minus_IZR. split; intros H; lra.
Qed.

Section geo.
  Variable r : list pedge.
  Hypothesis nd : NoDup (map fst r).
  Hypothesis nod0 : noded (map fst r).
  Hypothesis ge : good_edges r.
  Hypothesis one : forall e c, In (e, c) r -> c = 1 \/ c = -1.
  Hypothesis clo : closed (as_set r).
  Hypothesis dep : forall x y, b01 (depth_below (as_set r) 0 x y) /\ b01 (depth_below_left (as_set r) 0 x y).
  Definition fl : list vprop := as_set r.
  Notation l := fl.
  Notation E := (map fst fl).
  Lemma E_r : E = map fst r.
  Proof. apply as_fst. Qed.
  Lemma nod : noded E.
  Proof. rewrite E_r. exact nod0. Qed.
  Lemma l_in e : In e l -> exists c, In (fst e, c) r.
  Proof. intros H. unfold fl, as_set in H. apply in_map_iff in H as [[s c] [<- H]]. exists c. exact H. Qed.
  Lemma ord : forall e, In e l -> ordered (fst e).
  Proof. intros e H. destruct (l_in e H) as [c K]. apply (ge _ K). Qed.
  Lemma fit : forall e, In e l -> fits (fst e).
  Proof. intros e H. destruct (l_in e H) as [c K]. apply (ge _ K). Qed.
  Lemma ordE' s : In s E -> ordered s.
  Proof. apply (ordE l ord). Qed.
  Lemma fitE' s : In s E -> fits s.
  Proof. apply (fitE l fit). Qed.
  Definition ow (e : seg) : Z := own l 0 e.
  Lemma own_r e c : In (e, c) r -> ow e = c.
  Proof. apply own_one, nd. Qed.
  Lemma r_own e : In e E -> In (e, ow e) r.
  Proof. intros H. rewrite E_r in H. apply in_map_iff in H as [[s c] [Q H]]. cbn [fst] in Q. subst s. rewrite (own_r e c H). exact H. Qed.
  Lemma r_E e c : In (e, c) r -> In e E.
  Proof. intros H. rewrite E_r. apply (in_map fst _ _ H). Qed.
  Lemma own1 e : In e E -> ow e = 1 \/ ow e = -1.
  Proof. intros H. apply (one e), r_own, H. Qed.
  Definition nvb (e : seg) : bool := negb (vertical_edge e).
  Lemma nvb_iff e : In e E -> (nvb e = true <-> px (s_low e) < px (s_high e)).
  Proof. intros H. apply ordE' in H. apply ordered_iff in H. unfold nvb, vertical_edge. rewrite negb_true_iff, Z.eqb_neq. lia. Qed.
  Lemma vert_iff e : In e E -> (vertical_edge e = true <-> px (s_low e) = px (s_high e) /\ py (s_low e) < py (s_high e)).
  Proof. intros H. apply ordE' in H. apply ordered_iff in H. rewrite vertical_edge_iff. lia. Qed.

  (* sums over the set *)
  Lemma tot_r (c : seg -> bool) : tot (fun e => if c (fst e) then wt 0 e else 0) l = tot ow (filter c (map fst r)).
  Proof.
    unfold fl, as_set. rewrite tot_map. cbn [fst snd wt Z.eqb]. rewrite <- tot_filter. rewrite tot_map. apply tot_ext. intros [e k] H. unfold wt. cbn [fst snd]. destruct (c e); [|reflexivity]. rewrite (own_r e k H). reflexivity.
  Qed.
  Lemma tot_add_if (P Q S : seg -> bool) : (forall e, In e E -> P e = true -> Q e = false) -> (forall e, In e E -> S e = P e || Q e) ->
    tot (fun e => if S (fst e) then wt 0 e else 0) l = tot (fun e => if P (fst e) then wt 0 e else 0) l + tot (fun e => if Q (fst e) then wt 0 e else 0) l.
  Proof.
    intros A B. rewrite <- tot_add. apply tot_ext. intros e H. assert (K : In (fst e) E) by (apply in_map, H). rewrite (B _ K). destruct (P (fst e)) eqn:PP; cbn [orb]; [rewrite (A _ K PP)|]; lia.
  Qed.

  (* ---------- depths ---------- *)
  Lemma above01 x y : b01 (depth_above l 0 x y).
  Proof.
    destruct (gap (map (fun e => height (fst e) x) l) y) as [yy [Y H]]. replace (depth_above l 0 x y) with (depth_below l 0 x yy); [apply dep|]. apply tot_ext. intros e Ie.
    destruct (spans_r (fst e) x); [|reflexivity]. cbn [andb]. rewrite (ArbSums.bool_eq (rltb (height (fst e) x) yy) (rleb (height (fst e) x) y)); [reflexivity|]. rewrite rltb_iff, rleb_iff.
    destruct (H (height (fst e) x)) as [K|K]; [apply (in_map (fun e => height (fst e) x)), Ie|lra|lra].
  Qed.
  Lemma cumb01 e : b01 (cumb l 0 e).
  Proof. apply dep. Qed.
  Lemma cum01 e : In e E -> px (s_low e) < px (s_high e) -> b01 (cum l 0 e).
  Proof.
    intros He L. rewrite <- (cum_at l nod ord clo 0 e (IZR (px (s_low e)) + / 2) He); [apply above01|]. split; [apply izr_half_lt|apply izr_half_gt]; lia.
  Qed.

  (* ---------- a vertex ---------- *)
  Section vertex.
    Variables X y : Z.
    Notation p := (mk_pt X y).
    Hypothesis vtx : vertex l X y.
    Lemma through e : In e E -> inr e (IZR X) -> height e (IZR X) = IZR y -> False.
    Proof.
      intros He I H. destruct vtx as [f [Hf V]]. assert (f = e) as ->.
      { apply (touch E nod ordE' e f (IZR X) He Hf I). rewrite H. destruct V as [V|V]; [pose proof (on_low f) as O|pose proof (on_high f) as O]; rewrite V in O; exact O. }
      destruct I as [I1 I2]. apply lt_IZR in I1, I2. destruct V as [V|V]; rewrite V in *; cbn [px] in *; lia.
    Qed.
    Lemma start_here e : In e E -> px (s_low e) <= X < px (s_high e) -> height e (IZR X) = IZR y -> s_low e = p.
    Proof.
      intros He A H. destruct (Z.eq_dec (px (s_low e)) X) as [Q|Q]; [|exfalso; apply (through e He); [split; apply IZR_lt; lia|exact H]].
      rewrite <- Q, height_low in H. apply eq_IZR in H. apply eq_pt_iff. unfold eq_pt. cbn [px py]. lia.
    Qed.
    Lemma end_here e : In e E -> px (s_low e) < X <= px (s_high e) -> height e (IZR X) = IZR y -> s_high e = p.
    Proof.
      intros He A H. destruct (Z.eq_dec (px (s_high e)) X) as [Q|Q]; [|exfalso; apply (through e He); [split; apply IZR_lt; lia|exact H]].
      rewrite <- Q, height_high in H by lia. apply eq_IZR in H. apply eq_pt_iff. unfold eq_pt. cbn [px py]. lia.
    Qed.
    Definition begins (e : seg) : bool := eq_pt (s_low e) p && nvb e.
    Definition finishes (e : seg) : bool := eq_pt (s_high e) p && nvb e.
    Definition v_up (e : seg) : bool := eq_pt (s_low e) p && vertical_edge e.
    Definition v_dn (e : seg) : bool := eq_pt (s_high e) p && vertical_edge e.
    Lemma begins_iff e : In e E -> (begins e = true <-> s_low e = p /\ px (s_low e) < px (s_high e)).
    Proof. intros H. unfold begins. rewrite andb_true_iff, eq_pt_iff, nvb_iff by exact H. reflexivity. Qed.
    Lemma finishes_iff e : In e E -> (finishes e = true <-> s_high e = p /\ px (s_low e) < px (s_high e)).
    Proof. intros H. unfold finishes. rewrite andb_true_iff, eq_pt_iff, nvb_iff by exact H. reflexivity. Qed.
    Definition wsum (c : seg -> bool) : Z := tot (fun e => if c (fst e) then wt 0 e else 0) l.
    Definition Dbl := depth_below_left l 0 (IZR X) (IZR y).
    Definition Dbr := depth_below l 0 (IZR X) (IZR y).
    Definition Dar := depth_above l 0 (IZR X) (IZR y).
    Definition Dal := Dbl + wsum finishes.
    Lemma ar_br : Dar = Dbr + wsum begins.
    Proof.
      unfold Dar, Dbr, depth_above, depth_below, wsum. apply (tot_add_if (fun e => spans_r e (IZR X) && rltb (height e (IZR X)) (IZR y)) begins (fun e => spans_r e (IZR X) && rleb (height e (IZR X)) (IZR y))).
      - intros e He H. apply andb_true_iff in H as [H1 H2]. apply rltb_iff in H2. apply not_true_iff_false. rewrite begins_iff by exact He. intros [K _]. pose proof (height_low e) as HL. rewrite K in HL. cbn [px py] in HL. lra.
      - intros e He. apply ArbSums.bool_eq. rewrite orb_true_iff, !andb_true_iff, rltb_iff, rleb_iff, spans_rz, begins_iff by exact He. split.
        + intros [A B]. destruct (Req_dec (height e (IZR X)) (IZR y)) as [Q|Q]; [right|left; split; [exact A|lra]]. split; [apply start_here; assumption|lia].
        + intros [[A B]|[A B]]; [split; [exact A|lra]|]. pose proof (height_low e) as HL. rewrite A in HL, B |- *. cbn [px py] in *. split; [lia|lra].
    Qed.
    Lemma al_left : Dal = tot (fun e => if spans_l (fst e) (IZR X) && rleb (height (fst e) (IZR X)) (IZR y) then wt 0 e else 0) l.
    Proof.
      unfold Dal, Dbl, depth_below_left, wsum. symmetry. apply (tot_add_if (fun e => spans_l e (IZR X) && rltb (height e (IZR X)) (IZR y)) finishes (fun e => spans_l e (IZR X) && rleb (height e (IZR X)) (IZR y))).
      - intros e He H. apply andb_true_iff in H as [H1 H2]. apply rltb_iff in H2. apply not_true_iff_false. rewrite finishes_iff by exact He. intros [K L]. pose proof (height_high e L) as HL. rewrite K in HL. cbn [px py] in HL. lra.
      - intros e He. apply ArbSums.bool_eq. rewrite orb_true_iff, !andb_true_iff, rltb_iff, rleb_iff, spans_lz, finishes_iff by exact He. split.
        + intros [A B]. destruct (Req_dec (height e (IZR X)) (IZR y)) as [Q|Q]; [right|left; split; [exact A|lra]]. split; [apply end_here; assumption|lia].
        + intros [[A B]|[A B]]; [split; [exact A|lra]|]. pose proof (height_high e B) as HL. rewrite A in HL, B |- *. cbn [px py] in *. split; [lia|lra].
    Qed.
    Lemma al01 : b01 Dal.
    Proof.
      rewrite al_left. destruct (gap (map (fun e => height (fst e) (IZR X)) l) (IZR y)) as [yy [Y H]].
      match goal with |- b01 ?a => replace a with (depth_below_left l 0 (IZR X) yy) end; [apply dep|]. apply tot_ext. intros e Ie.
      destruct (spans_l (fst e) (IZR X)); [|reflexivity]. cbn [andb]. rewrite (ArbSums.bool_eq (rltb (height (fst e) (IZR X)) yy) (rleb (height (fst e) (IZR X)) (IZR y))); [reflexivity|]. rewrite rltb_iff, rleb_iff.
      destruct (H (height (fst e) (IZR X))) as [K|K]; [apply (in_map (fun e => height (fst e) (IZR X))), Ie|lra|lra].
    Qed.
    Lemma br_bl : Dbr = Dbl + wsum v_dn.
    Proof.
      unfold Dbr, Dbl. rewrite (green l ord clo 0 X (IZR y)). f_equal. apply tot_ext. intros e Ie. assert (He : In (fst e) E) by (apply in_map, Ie).
      rewrite (ArbSums.bool_eq (vcov X (IZR y) (fst e)) (v_dn (fst e))); [reflexivity|]. rewrite vcov_iff. unfold v_dn. rewrite andb_true_iff, eq_pt_iff, vert_iff by exact He. split.
      - intros [A [B [C D]]]. apply lt_IZR in C. apply le_IZR in D. destruct (Z.eq_dec (py (s_high (fst e))) y) as [Q|Q]; [split; [apply eq_pt_iff; unfold eq_pt; cbn [px py]; lia|lia]|].
        exfalso. apply (vertex_inside l nod ord X y (fst e) vtx He); [apply vertical_edge_iff; lia|lia..].
      - intros [A [B C]]. rewrite A in B, C |- *. cbn [px py] in *. split; [exact B|]. split; [reflexivity|]. split; [apply IZR_lt, C|lra].
    Qed.
    Lemma al_ar : Dal = Dar - wsum v_up.
    Proof.
      pose proof (clo 0 p) as C. fold l in C.
      assert (S : forall (c : seg -> point), tot (fun e => if eq_pt (c (fst e)) p then along 0 e else 0) l = wsum (fun e => eq_pt (c e) p && nvb e) - wsum (fun e => eq_pt (c e) p && vertical_edge e)).
      { intros c. unfold wsum. rewrite <- tot_sub. apply tot_ext. intros e _. unfold along, nvb. destruct (eq_pt (c (fst e)) p), (vertical_edge (fst e)); cbn [andb negb]; lia. }
      rewrite (S s_low), (S s_high) in C. pose proof ar_br as A. pose proof br_bl as B. unfold Dal. fold (begins) (finishes) (v_up) (v_dn) in C. lia.
    Qed.

    (* the edges on the left, from below *)
    Lemma left_first e : In e E -> s_high e = p -> px (s_low e) < px (s_high e) -> (forall f, In f E -> s_high f = p -> ~ lte f e) -> cumb l 0 e = Dbl.
    Proof.
      intros He Q L N. assert (XE : px (s_high e) = X) by (rewrite Q; reflexivity). assert (IE : inr e (IZR (X - 1) + / 2)) by (split; [apply izr_half_lt|apply izr_half_gt]; lia).
      rewrite <- (cumb_at l nod ord clo 0 e _ He IE). unfold Dbl, depth_below, depth_below_left. apply tot_ext. intros f Hf. assert (Hf' : In (fst f) E) by (apply in_map, Hf). destruct f as [s w]. cbn [fst] in *. generalize (wt 0 (s, w)). intros c.
      rewrite (ArbSums.bool_eq (spans_l s (IZR X)) (spans_r s (IZR (X - 1) + / 2))) by (rewrite spans_lz, spans_before; reflexivity).
      destruct (spans_r s (IZR (X - 1) + / 2)) eqn:S; [|reflexivity]. cbn [andb]. apply spans_before in S.
      rewrite (ArbSums.bool_eq (rltb (height s (IZR (X - 1) + / 2)) (height e (IZR (X - 1) + / 2))) (rltb (height s (IZR X)) (IZR y))); [reflexivity|]. rewrite !rltb_iff.
      assert (IF : inr s (IZR (X - 1) + / 2)) by (split; [apply izr_half_lt|apply izr_half_gt]; lia).
      assert (I : inc e (IZR X)) by (split; apply IZR_le; lia). assert (J : inc s (IZR X)) by (split; apply IZR_le; lia).
      pose proof (height_high e L) as HH. rewrite Q in HH. cbn [px py] in HH.
      destruct (lte_total E nod ordE' e s _ He Hf' IE IF) as [->|[H|H]].
      - lra.
      - pose proof (lte_le E nod ordE' e s _ He Hf' H I J). pose proof (lte_at E nod ordE' e s _ He Hf' H IE IF). lra.
      - pose proof (lte_le E nod ordE' s e _ Hf' He H J I) as P. pose proof (lte_at E nod ordE' s e _ Hf' He H IF IE).
        destruct (Req_dec (height s (IZR X)) (IZR y)) as [K|K]; [|lra]. exfalso. apply (N s Hf'); [|exact H]. apply end_here; assumption.
    Qed.
    Lemma left_next e f : In e E -> In f E -> s_high e = p -> s_high f = p -> lte e f -> (forall g, In g E -> s_high g = p -> lte e g -> lte g f -> False) -> cumb l 0 f = cum l 0 e.
    Proof.
      intros He Hf Q1 Q2 Hl N. destruct (lte_nv e f Hl) as [Le Lf]. unfold nv in Le, Lf. assert (XE : px (s_high e) = X) by (rewrite Q1; reflexivity). assert (XF : px (s_high f) = X) by (rewrite Q2; reflexivity).
      assert (IE : inr e (IZR (X - 1) + / 2)) by (split; [apply izr_half_lt|apply izr_half_gt]; lia). assert (IF : inr f (IZR (X - 1) + / 2)) by (split; [apply izr_half_lt|apply izr_half_gt]; lia).
      pose proof (lte_at E nod ordE' e f _ He Hf Hl IE IF) as LT.
      rewrite <- (cumb_at l nod ord clo 0 f _ Hf IF), <- (cum_at l nod ord clo 0 e _ He IE). unfold depth_above, depth_below. apply tot_ext. intros g Hg. assert (Hg' : In (fst g) E) by (apply in_map, Hg). destruct g as [s w]. cbn [fst] in *. generalize (wt 0 (s, w)). intros c.
      destruct (spans_r s (IZR (X - 1) + / 2)) eqn:S; [|reflexivity]. cbn [andb]. apply spans_before in S.
      rewrite (ArbSums.bool_eq (rltb (height s (IZR (X - 1) + / 2)) (height f (IZR (X - 1) + / 2))) (rleb (height s (IZR (X - 1) + / 2)) (height e (IZR (X - 1) + / 2)))); [reflexivity|]. rewrite rltb_iff, rleb_iff. split; [|lra]. intros H.
      destruct (Rle_dec (height s (IZR (X - 1) + / 2)) (height e (IZR (X - 1) + / 2))) as [K|K]; [exact K|]. exfalso.
      assert (IS : inr s (IZR (X - 1) + / 2)) by (split; [apply izr_half_lt|apply izr_half_gt]; lia).
      assert (H1 : lte e s) by (exists (IZR (X - 1) + / 2)%R; repeat split; try apply IE; try apply IS; lra).
      assert (H2 : lte s f) by (exists (IZR (X - 1) + / 2)%R; repeat split; try apply IF; try apply IS; lra).
      apply (N s Hg'); try assumption. apply end_here; try assumption.
      assert (I : inc e (IZR X)) by (split; apply IZR_le; lia). assert (J : inc s (IZR X)) by (split; apply IZR_le; lia). assert (I' : inc f (IZR X)) by (split; apply IZR_le; lia).
      pose proof (lte_le E nod ordE' e s _ He Hg' H1 I J). pose proof (lte_le E nod ordE' s f _ Hg' Hf H2 J I').
      pose proof (height_high e Le) as P1. pose proof (height_high f Lf) as P2. rewrite Q1 in P1. rewrite Q2 in P2. cbn [px py] in *. lra.
    Qed.
    Lemma sorted_between (m a b : list seg) e f g : StronglySorted lte m -> m = a ++ e :: f :: b -> (forall s, In s m -> In s E) -> In g m -> lte e g -> lte g f -> False.
    Proof.
      intros S Q HE Hg H1 H2. rewrite Q in *. assert (SS : forall u w, In u a -> In w (e :: f :: b) -> lte u w).
      { clear - S. induction a as [|x a IH]; intros u w U W; [destruct U|]. cbn [app] in S. apply StronglySorted_inv in S as [S F]. destruct U as [<-|U]; [|apply IH; assumption]. rewrite Forall_forall in F. apply F, in_or_app. right. exact W. }
      assert (S2 : StronglySorted lte (e :: f :: b)) by (clear - S; induction a as [|x a IH]; [exact S|apply IH; cbn [app] in S; apply StronglySorted_inv in S; apply S]).
      apply StronglySorted_inv in S2 as [S2 F2]. apply StronglySorted_inv in S2 as [S3 F3]. rewrite Forall_forall in F2, F3.
      assert (IN : forall s, In s (e :: f :: b) -> In s E) by (intros s K; apply HE, in_or_app; right; exact K). assert (Ie : In e E) by (apply IN; left; reflexivity). assert (If : In f E) by (apply IN; right; left; reflexivity).
      apply in_app_or in Hg as [G|[<-|[<-|G]]].
      - assert (lte g e) by (apply SS; [exact G|left; reflexivity]). apply (lte_asym E nod ordE' g e); try assumption. apply HE, in_or_app. left. exact G.
      - apply (lte_irrefl _ H1).
      - apply (lte_irrefl _ H2).
      - apply (lte_asym E nod ordE' f g); try assumption; [apply IN; right; right; exact G|apply F3, G].
    Qed.
    Lemma sorted_first (m m' : list seg) e f : StronglySorted lte m -> m = e :: m' -> (forall s, In s m -> In s E) -> In f m -> ~ lte f e.
    Proof.
      intros S -> HE Hf H. apply StronglySorted_inv in S as [S F]. rewrite Forall_forall in F. destruct Hf as [<-|Hf]; [apply (lte_irrefl _ H)|].
      apply (lte_asym E nod ordE' f e); [apply HE; right; exact Hf|apply HE; left; reflexivity|exact H|apply F, Hf].
    Qed.
    Lemma sorted_nodup (m : list seg) : StronglySorted lte m -> NoDup m.
    Proof. induction 1 as [|a m S IH F]; constructor; [|exact IH]. intros K. rewrite Forall_forall in F. apply (lte_irrefl a), F, K. Qed.
    Lemma tot_list (c : seg -> bool) (m : list seg) : NoDup m -> (forall e, In e m <-> In e E /\ c e = true) -> tot ow m = wsum c.
    Proof.
      intros N H. unfold wsum. rewrite tot_r. apply tot_permut, NoDup_Permutation; [exact N|apply NoDup_filter, nd|]. intros e. rewrite filter_In, <- E_r. apply H.
    Qed.
    Lemma right_steps m : StronglySorted lte m -> (forall e, In e m <-> In e E /\ begins e = true) -> steps (-1) Dbr (map ow m) Dar.
    Proof.
      intros S H. rewrite ar_br, <- (tot_list begins m (sorted_nodup m S) H). assert (HE : forall s, In s m -> In s E) by (intros s K; apply H, K).
      assert (HB : forall s, In s m -> s_low s = p /\ px (s_low s) < px (s_high s)) by (intros s K; apply begins_iff; [apply HE, K|apply H, K]).
      apply (chain_steps ow (cumb l 0)).
      - intros e K. split; [apply own1, HE, K|]. apply cum01; [apply HE, K|apply HB, K].
      - intros e m' Q. assert (K : In e m) by (rewrite Q; left; reflexivity). destruct (HB e K) as [B1 B2]. rewrite (cumb_first l nod ord 0 e (HE e K) B2); [rewrite B1; reflexivity|]. intros f Hf Hfe L. apply (sorted_first m m' e f S Q HE); [|exact L].
        apply H. split; [exact Hf|]. apply begins_iff; [exact Hf|]. split; [congruence|]. apply (lte_nv _ _ L).
      - intros a e f b Q. assert (K1 : In e m) by (rewrite Q; apply in_or_app; right; left; reflexivity). assert (K2 : In f m) by (rewrite Q; apply in_or_app; right; right; left; reflexivity).
        destruct (HB e K1) as [B1 B2]. destruct (HB f K2) as [C1 C2]. change (cumb l 0 e + ow e) with (cum l 0 e). apply (cumb_next l nod ord clo 0 e f); [apply HE, K1|apply HE, K2|congruence|exact B2| |].
        + rewrite Q in S. clear - S. induction a as [|x a IH]; [|apply IH; cbn [app] in S; apply StronglySorted_inv in S; apply S]. cbn [app] in S. apply StronglySorted_inv in S as [_ F]. rewrite Forall_forall in F. apply F. left. reflexivity.
        + intros g Hg L1 L2 L3. apply (sorted_between m a b e f g S Q HE); [|exact L2|exact L3]. apply H. split; [exact Hg|]. apply begins_iff; [exact Hg|]. split; [congruence|apply (lte_nv _ _ L3)].
    Qed.
    Lemma left_steps m : StronglySorted lte m -> (forall e, In e m <-> In e E /\ finishes e = true) -> steps (-1) Dbl (map ow m) Dal.
    Proof.
      intros S H. unfold Dal. rewrite <- (tot_list finishes m (sorted_nodup m S) H). assert (HE : forall s, In s m -> In s E) by (intros s K; apply H, K).
      assert (HB : forall s, In s m -> s_high s = p /\ px (s_low s) < px (s_high s)) by (intros s K; apply finishes_iff; [apply HE, K|apply H, K]).
      apply (chain_steps ow (cumb l 0)).
      - intros e K. split; [apply own1, HE, K|]. apply cum01; [apply HE, K|apply HB, K].
      - intros e m' Q. assert (K : In e m) by (rewrite Q; left; reflexivity). destruct (HB e K) as [B1 B2]. apply (left_first e (HE e K) B1 B2). intros f Hf Hfe L. apply (sorted_first m m' e f S Q HE); [|exact L].
        apply H. split; [exact Hf|]. apply finishes_iff; [exact Hf|]. split; [congruence|]. apply (lte_nv _ _ L).
      - intros a e f b Q. assert (K1 : In e m) by (rewrite Q; apply in_or_app; right; left; reflexivity). assert (K2 : In f m) by (rewrite Q; apply in_or_app; right; right; left; reflexivity).
        destruct (HB e K1) as [B1 B2]. destruct (HB f K2) as [C1 C2]. change (cumb l 0 e + ow e) with (cum l 0 e). apply (left_next e f); [apply HE, K1|apply HE, K2|exact B1|exact C1| |].
        + rewrite Q in S. clear - S. induction a as [|x a IH]; [|apply IH; cbn [app] in S; apply StronglySorted_inv in S; apply S]. cbn [app] in S. apply StronglySorted_inv in S as [_ F]. rewrite Forall_forall in F. apply F. left. reflexivity.
        + intros g Hg L1 L2 L3. apply (sorted_between m a b e f g S Q HE); [|exact L2|exact L3]. apply H. split; [exact Hg|]. apply finishes_iff; [exact Hg|]. split; [congruence|apply (lte_nv _ _ L3)].
    Qed.
    (* the vertical edges *)
    Definition one_of (c : seg -> bool) (o : option seg) : Prop := match o with Some e => In e E /\ c e = true /\ (forall f, In f E -> c f = true -> f = e) | None => forall f, In f E -> c f = false end.
    Lemma wsum_one c o : one_of c o -> wsum c = match o with Some e => ow e | None => 0 end.
    Proof.
      intros H. destruct o as [e|].
      - destruct H as [H1 [H2 H3]]. rewrite <- (tot_list c [e]); [cbn [tot]; lia|constructor; [intros []|constructor]|]. intros f. split; [intros [<-|[]]; auto|]. intros [K1 K2]. left. symmetry. apply H3; assumption.
      - unfold wsum. apply tot_zero. intros f Hf. rewrite H; [reflexivity|apply in_map, Hf].
    Qed.
    Definition vlist (o : option seg) : list Z := match o with Some e => [- ow e] | None => [] end.
    Lemma ss_snoc {A} (R : A -> A -> Prop) m a : StronglySorted R m -> (forall b, In b m -> R b a) -> StronglySorted R (m ++ [a]).
    Proof.
      clear. induction m as [|b m IH]; intros S H; cbn [app]; [constructor; constructor|]. apply StronglySorted_inv in S as [S F]. constructor; [apply IH; [exact S|intros c K; apply H; right; exact K]|].
      apply Forall_app. split; [exact F|]. constructor; [apply H; left; reflexivity|constructor].
    Qed.
    Lemma ss_rev {A} (R : A -> A -> Prop) m : StronglySorted R m -> StronglySorted (fun a b => R b a) (rev m).
    Proof. clear. induction 1 as [|a m S IH F]; cbn [rev]; [constructor|]. apply ss_snoc; [exact IH|]. intros b K. rewrite Forall_forall in F. apply F. apply in_rev in K. exact K. Qed.
    Lemma in_steps m o : StronglySorted lte m -> (forall e, In e m <-> In e E /\ begins e = true) -> one_of v_up o -> alt (-1) (Dbr =? 1) (map ow m ++ vlist o) (Dal =? 1).
    Proof.
      intros S H O. apply steps_alt; [right; reflexivity|apply dep|]. apply (steps_app _ _ _ _ Dar); [apply right_steps; assumption|]. pose proof al_ar as A. rewrite (wsum_one _ _ O) in A. destruct o as [e|]; cbn [vlist steps].
      - destruct O as [O1 _]. pose proof (own1 e O1). split; [lia|]. replace (Dar - -1 * - ow e) with Dal by lia. split; [apply al01|reflexivity].
      - lia.
    Qed.
    Lemma out_steps m o : StronglySorted (fun a b => lte b a) m -> (forall e, In e m <-> In e E /\ finishes e = true) -> one_of v_dn o -> alt 1 (Dal =? 1) (map ow m ++ vlist o) (Dbr =? 1).
    Proof.
      intros S H O. apply steps_alt; [left; reflexivity|apply al01|]. apply (steps_app _ _ _ _ Dbl).
      - rewrite <- (rev_involutive m), map_rev. apply steps_rev; [apply dep|]. apply left_steps; [|intros e; rewrite <- in_rev; apply H].
        apply (ss_rev (fun a b => lte b a) m S).
      - pose proof br_bl as A. rewrite (wsum_one _ _ O) in A. destruct o as [e|]; cbn [vlist steps].
        + destruct O as [O1 _]. pose proof (own1 e O1). split; [lia|]. replace (Dbl - 1 * - ow e) with Dbr by lia. split; [apply dep|reflexivity].
        + lia.
    Qed.
  End vertex.
End geo.
