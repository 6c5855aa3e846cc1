(* Removing colinear points from a closed rectilinear curve. *)
From Verif Require Import Base Units Outcome Scan90Spec Poly90Spec PolySpec Poly90Model Poly90Proofs PolyCycle Poly90Contains Set90Model PolyFormModel ResizePolyModel.
From Coq Require Import Arith Permutation.

(* what is kept *)
Record red (l l' : list point) : Prop := mk_red {
  d_wn : forall x y, winding_number l' x y = winding_number l x y;
  d_ax : rectilinear l -> rectilinear l';
  d_in : forall p, In p l' -> In p l;
  d_len : (length l' <= length l)%nat }.
Lemma red_refl l : red l l.
Proof. constructor; auto. Qed.
Lemma red_trans a b c : red a b -> red b c -> red a c.
Proof. intros [A1 A2 A3 A4] [B1 B2 B3 B4]. constructor; [intros; rewrite B1; apply A1|auto|auto|lia]. Qed.
Lemma red_rot l m : red (l ++ m) (m ++ l).
Proof.
  constructor.
  - intros x y. apply winding_rotate.
  - unfold rectilinear. intros H. eapply Permutation_Forall; [apply cyc_rotate|exact H].
  - intros p. rewrite !in_app_iff. tauto.
  - rewrite !app_length. lia.
Qed.
Lemma colinear_iff a b c : colinear a b c = true <-> (px a = px b /\ px a = px c) \/ (py a = py b /\ py a = py c).
Proof. unfold colinear. lia. Qed.
Lemma colinear_crossing x y a b c : colinear a b c = true -> crossing x y (a, b) + crossing x y (b, c) = crossing x y (a, c).
Proof.
  rewrite colinear_iff. destruct a as [a1 a2], b as [b1 b2], c as [c1 c2]. cbn [px py]. intros [[-> ->]|[-> ->]].
  - rewrite !crossing_v. reflexivity.
  - rewrite !crossing_h. lia.
Qed.
Lemma red_one b c M : colinear (last M c) b c = true -> red (b :: c :: M) (c :: M).
Proof.
  intros H. assert (E1 : cyc_edges (b :: c :: M) = (b, c) :: pedges (c :: M) ++ [(last M c, b)]) by (rewrite cyc_pedges; change ((b :: c :: M) ++ [b]) with (b :: (c :: M) ++ [b]); rewrite <- pedges_app; reflexivity).
  assert (E2 : cyc_edges (c :: M) = pedges (c :: M) ++ [(last M c, c)]) by (rewrite cyc_pedges, pedges_app; reflexivity).
  constructor.
  - intros x y. unfold winding_number. rewrite E1, E2, zsum_cons, !zsum_app, !zsum_cons. unfold zsum at 2 4. cbn [fold_right]. rewrite <- (colinear_crossing x y _ b c H). lia.
  - unfold rectilinear. rewrite E1, E2. intros F. inversion F as [|? ? F1 F2]; subst. apply Forall_app in F2 as [F2 F3]. apply Forall_app. split; [exact F2|]. constructor; [|constructor].
    apply colinear_iff in H. unfold axis_edge. cbn [fst snd]. lia.
  - intros p I. right. exact I.
  - cbn [length]. lia.
Qed.
Lemma red_single b : red [b] [].
Proof.
  constructor; [|intros _; constructor|intros p []|cbn; lia]. intros x y. unfold winding_number. rewrite cyc_pedges. cbn [app pedges]. rewrite zsum_cons.
  destruct b as [b1 b2]. rewrite crossing_h. unfold zsum. cbn [fold_right cyc_edges]. lia.
Qed.

(* ---------- one pass ---------- *)
Definition pred_of (kept : list point) (b : point) (rest : list point) : point := match kept with k :: _ => k | [] => last rest b end.
Lemma last_rev_cons (k : point) ks d : last (rev (k :: ks)) d = k.
Proof. cbn [rev]. apply last_app1. Qed.
Lemma last_cons' {A : Type} (rest : list A) : forall r q, last (r :: rest) q = last rest r.
Proof. induction rest as [|b rest IH]; intros r q; [reflexivity|]. change (last (r :: b :: rest) q) with (last (b :: rest) q). rewrite !IH. reflexivity. Qed.
Lemma last_app2 {A : Type} (l m : list A) d : m <> [] -> last (l ++ m) d = last m d.
Proof. intros N. destruct (exists_last N) as [m' [z ->]]. rewrite app_assoc, !last_app1. reflexivity. Qed.
Lemma red_scan_step kept b c rest : colinear (pred_of kept b (c :: rest)) b c = true -> red (rev kept ++ b :: c :: rest) (rev kept ++ c :: rest).
Proof.
  intros H. eapply red_trans; [apply red_rot|]. apply red_trans with ((c :: rest) ++ rev kept); [|apply red_rot]. cbn [app]. apply red_one.
  destruct kept as [|k ks]; cbn [pred_of] in H.
  - cbn [rev]. rewrite app_nil_r, <- (last_cons' rest c b). exact H.
  - rewrite last_app2 by (cbn [rev]; destruct (rev ks); discriminate). rewrite last_rev_cons. exact H.
Qed.
Lemma rc_scan_red rest : forall kept b, let '(kept', a', b') := rc_scan kept (pred_of kept b rest) b rest in
  a' = pred_of kept' b' [] /\ red (rev kept ++ b :: rest) (rev kept' ++ [b']).
Proof.
  induction rest as [|c rest IH]; intros kept b; cbn [rc_scan].
  - split; [reflexivity|apply red_refl].
  - destruct (colinear (pred_of kept b (c :: rest)) b c) eqn:E.
    + specialize (IH kept c). replace (pred_of kept b (c :: rest)) with (pred_of kept c rest) by (destruct kept; [cbn [pred_of]; symmetry; apply last_cons'|reflexivity]).
      destruct (rc_scan kept (pred_of kept c rest) c rest) as [[kept' a'] b']. destruct IH as [I1 I2]. split; [exact I1|]. eapply red_trans; [|exact I2]. apply red_scan_step. exact E.
    + specialize (IH (b :: kept) c). cbn [pred_of] in IH. destruct (rc_scan (b :: kept) b c rest) as [[kept' a'] b']. destruct IH as [I1 I2]. split; [exact I1|]. cbn [rev] in I2. rewrite <- app_assoc in I2. exact I2.
Qed.
Lemma rc_pass_red l : red l (rc_pass l).
Proof.
  destruct l as [|b rest]; [apply red_refl|]. cbn [rc_pass]. pose proof (rc_scan_red rest [] b) as K. cbn [pred_of rev app] in K. destruct (rc_scan [] (last rest b) b rest) as [[kept a'] b'].
  destruct K as [-> K]. destruct (colinear (pred_of kept b' []) b' (hd b' (rev kept))) eqn:E.
  - eapply red_trans; [exact K|]. destruct kept as [|k ks]; [apply red_single|]. eapply red_trans; [apply red_rot|]. cbn [app]. cbn [pred_of] in E.
    pose proof (last_rev_cons k ks) as La. destruct (rev (k :: ks)) as [|c M]; [specialize (La b'); specialize (La) |].
    + apply red_single.
    + cbn [hd] in E. apply red_one. specialize (La c). rewrite last_cons' in La. rewrite La. exact E.
  - cbn [rev]. exact K.
Qed.

(* ---------- nothing found ---------- *)
Fixpoint nocol (a b : point) (rest : list point) : Prop :=
  match rest with [] => True | c :: rest' => colinear a b c = false /\ nocol b c rest' end.
Lemma nocol_app rest : forall a b c, nocol a b (rest ++ [c]) <-> nocol a b rest /\ colinear (match rest with [] => a | r :: _ => last (b :: removelast rest) b end) (last rest b) c = false.
Proof.
  induction rest as [|r rest IH]; intros a b c.
  - cbn [app nocol last]. tauto.
  - cbn [app nocol]. rewrite (IH b r c). destruct rest as [|r2 rest].
    + cbn [last removelast nocol]. tauto.
    + change (removelast (r :: r2 :: rest)) with (r :: removelast (r2 :: rest)). rewrite (last_cons' (r2 :: rest) r b), (last_cons' (r :: removelast (r2 :: rest)) b b).
      rewrite (last_cons' (removelast (r2 :: rest)) r r). rewrite (last_cons' (removelast (r2 :: rest)) r b). tauto.
Qed.
Lemma rc_scan_len rest : forall kept a b, let '(kept', a', b') := rc_scan kept a b rest in
  (length kept' <= length kept + length rest)%nat /\
  (length kept' = (length kept + length rest)%nat -> rev kept' ++ [b'] = rev kept ++ b :: rest /\ nocol a b rest /\ b' = last rest b /\ a' = match rest with [] => a | _ => last (b :: removelast rest) b end).
Proof.
  induction rest as [|c rest IH]; intros kept a b; cbn [rc_scan].
  - split; [lia|]. intros _. repeat split.
  - destruct (colinear a b c) eqn:E.
    + specialize (IH kept a c). destruct (rc_scan kept a c rest) as [[kept' a'] b']. destruct IH as [I1 _]. cbn [length]. split; [lia|]. intros K. exfalso. lia.
    + specialize (IH (b :: kept) b c). destruct (rc_scan (b :: kept) b c rest) as [[kept' a'] b']. destruct IH as [I1 I2]. cbn [length] in *. split; [lia|]. intros K.
      destruct I2 as [J1 [J2 [J3 J4]]]; [lia|]. split; [rewrite J1; cbn [rev]; rewrite <- app_assoc; reflexivity|]. split; [split; assumption|]. split; [rewrite J3; symmetry; apply last_cons'|].
      rewrite J4. destruct rest as [|r rest]; [reflexivity|]. change (removelast (c :: r :: rest)) with (c :: removelast (r :: rest)).
      rewrite (last_cons' (c :: removelast (r :: rest)) b b), (last_cons' (removelast (r :: rest)) c c), (last_cons' (removelast (r :: rest)) c b). reflexivity.
Qed.
Lemma rc_pass_same b rest : length (rc_pass (b :: rest)) = length (b :: rest) -> rc_pass (b :: rest) = b :: rest /\ nocol (last rest b) b (rest ++ [b]).
Proof.
  cbn [rc_pass]. pose proof (rc_scan_len rest [] (last rest b) b) as K. destruct (rc_scan [] (last rest b) b rest) as [[kept a'] b']. cbn [rev app length] in *. destruct K as [K1 K2].
  destruct (colinear a' b' (hd b' (rev kept))) eqn:E.
  - rewrite rev_length. intros L. exfalso. lia.
  - cbn [rev]. rewrite app_length, rev_length. cbn [length]. intros L. destruct K2 as [J1 [J2 [J3 J4]]]; [lia|]. split; [exact J1|]. apply nocol_app. split; [exact J2|].
    assert (Hd : hd b' (rev kept) = b) by (destruct (rev kept) as [|k ks]; cbn [app] in J1; inversion J1; subst; reflexivity).
    rewrite Hd in E. rewrite J3, J4 in E. exact E.
Qed.

(* ---------- no colinear points: the edges alternate ---------- *)
Definition kind (e : point * point) : orient := if py (fst e) =? py (snd e) then Horizontal else Vertical.
Lemma nocol_step a b c : axis_edge (a, b) -> axis_edge (b, c) -> colinear a b c = false -> a <> b /\ b <> c /\ kind (b, c) = perp (kind (a, b)).
Proof.
  unfold axis_edge, kind. cbn [fst snd]. destruct a as [a1 a2], b as [b1 b2], c as [c1 c2]. unfold colinear. cbn [px py]. intros A B C. 
  assert (N : ~ (a1 = b1 /\ a2 = b2)) by lia. assert (N2 : ~ (b1 = c1 /\ b2 = c2)) by lia. split; [intros E; inversion E; lia|]. split; [intros E; inversion E; lia|].
  destruct (Z.eqb_spec b2 c2), (Z.eqb_spec a2 b2); cbn [perp]; try reflexivity; exfalso; lia.
Qed.
Lemma alt_cons o a b es : alt_edges o ((a, b) :: es) <-> (match o with Horizontal => py a = py b | Vertical => px a = px b end) /\ alt_edges (perp o) es.
Proof. destruct o; cbn [alt_edges perp]; tauto. Qed.
Lemma axis_kind a b : axis_edge (a, b) -> match kind (a, b) with Horizontal => py a = py b | Vertical => px a = px b end.
Proof. unfold axis_edge, kind. cbn [fst snd]. destruct (Z.eqb_spec (py a) (py b)); lia. Qed.
Lemma iter_r {A : Type} (f : A -> A) n : forall a, Nat.iter (S n) f a = Nat.iter n f (f a).
Proof. induction n as [|n IH]; intros a; [reflexivity|]. change (f (Nat.iter (S n) f a) = f (Nat.iter n f (f a))). rewrite IH. reflexivity. Qed.
Lemma nocol_alt rest : forall a b, axis_edge (a, b) -> Forall axis_edge (pedges (b :: rest)) -> nocol a b rest ->
  alt_edges (perp (kind (a, b))) (pedges (b :: rest)) /\ Forall (fun e => fst e <> snd e) (pedges (b :: rest)) /\
  forall c, last (b :: rest) b = c -> match rest with [] => True | _ => kind (last (b :: removelast rest) b, c) = Nat.iter (length rest) perp (kind (a, b)) end.
Proof.
  induction rest as [|r rest IH]; intros a b A F N.
  - cbn [pedges]. split; [exact I|]. split; [constructor|]. intros; exact I.
  - change (pedges (b :: r :: rest)) with ((b, r) :: pedges (r :: rest)) in *. inversion F as [|? ? F1 F2]; subst. destruct N as [N1 N2]. destruct (nocol_step a b r A F1 N1) as [M1 [M2 M3]].
    destruct (IH b r F1 F2 N2) as [I1 [I2 I3]]. split; [|split].
    + apply alt_cons. split; [|rewrite <- M3; exact I1]. rewrite <- M3. apply axis_kind. exact F1.
    + constructor; assumption.
    + intros c E. destruct rest as [|r2 rest].
      * cbn [last removelast length Nat.iter nat_rect] in *. subst c. exact M3.
      * rewrite last_cons' in E. rewrite (last_cons' (r2 :: rest) r b) in E. specialize (I3 c ltac:(rewrite (last_cons' (r2 :: rest) r r); exact E)).
        change (removelast (r :: r2 :: rest)) with (r :: removelast (r2 :: rest)). rewrite (last_cons' (r :: removelast (r2 :: rest)) b b), (last_cons' (removelast (r2 :: rest)) r b).
        rewrite (last_cons' (removelast (r2 :: rest)) r r) in I3. rewrite I3, M3. change (length (r :: r2 :: rest)) with (S (length (r2 :: rest))). rewrite iter_r. reflexivity.
Qed.
Lemma perp_iter n o : Nat.iter n perp o = o -> Nat.Even n.
Proof.
  intros H. destruct (Nat.Even_or_Odd n) as [E|[k ->]]; [exact E|exfalso]. assert (K : forall m, Nat.iter (2 * m) perp o = o).
  { induction m as [|m IH]; [reflexivity|]. replace (2 * S m)%nat with (S (S (2 * m)))%nat by lia. change (perp (perp (Nat.iter (2 * m) perp o)) = o). rewrite IH. destruct o; reflexivity. }
  replace (2 * k + 1)%nat with (S (2 * k)) in H by lia. change (perp (Nat.iter (2 * k) perp o) = o) in H. rewrite K in H. destruct o; discriminate.
Qed.
Lemma nocol_ring b rest : rest <> [] -> rectilinear (b :: rest) -> nocol (last rest b) b (rest ++ [b]) -> (exists o, alternates o (b :: rest)) /\ no_zero_edge (b :: rest).
Proof.
  intros Nr R N. unfold rectilinear in R. rewrite cyc_pedges in R. assert (A : axis_edge (last rest b, b)).
  { rewrite pedges_app in R. apply Forall_app in R as [_ R]. inversion R; subst. assumption. }
  destruct (nocol_alt (rest ++ [b]) (last rest b) b A R N) as [I1 [I2 I3]]. split.
  - exists (perp (kind (last rest b, b))). unfold alternates. rewrite cyc_pedges. split; [|exact I1].
    specialize (I3 b ltac:(change (b :: rest ++ [b]) with ((b :: rest) ++ [b]); apply last_app1)). destruct (rest ++ [b]) as [|z zs] eqn:E; [destruct rest; discriminate|]. rewrite <- E in I3.
    rewrite removelast_last in I3. rewrite last_cons' in I3. apply (perp_iter _ (kind (last rest b, b))). rewrite app_length in I3. cbn [length] in I3 |- *. rewrite Nat.add_1_r in I3. symmetry. exact I3.
  - unfold no_zero_edge. rewrite cyc_pedges. exact I2.
Qed.

(* ---------- the loop ---------- *)
Lemma rc_loop_spec fuel : forall l, (length l <= fuel)%nat -> rectilinear l -> exists l', rc_loop fuel l = Some l' /\ red l l' /\ ((length l' < 4)%nat \/ (exists o, alternates o l') /\ no_zero_edge l').
Proof.
  induction fuel as [|fuel IH]; intros l Hl R; cbn [rc_loop]; destruct (Nat.ltb_spec (length l) 4) as [C|C].
  - exists l. split; [reflexivity|]. split; [apply red_refl|]. left; exact C.
  - lia.
  - exists l. split; [reflexivity|]. split; [apply red_refl|]. left; exact C.
  - cbv zeta. pose proof (rc_pass_red l) as Rd. destruct (Nat.eqb_spec (length (rc_pass l)) (length l)) as [E|E].
    + destruct l as [|b rest]; [cbn in C; lia|]. destruct (rc_pass_same b rest E) as [E1 E2]. exists (b :: rest). split; [rewrite E1; reflexivity|]. split; [apply red_refl|]. right.
      apply nocol_ring; [intros ->; cbn in C; lia|exact R|exact E2].
    + destruct Rd as [D1 D2 D3 D4] eqn:Q. destruct (IH (rc_pass l)) as [l' [I1 [I2 I3]]]; [lia|exact (D2 R)|]. exists l'. split; [exact I1|]. split; [|exact I3]. eapply red_trans; [|exact I2]. constructor; assumption.
Qed.
Lemma remove_colinear_spec l : rectilinear l -> exists l', remove_colinear_pts l = Ok l' /\ red l l' /\ ((length l' < 4)%nat \/ (exists o, alternates o l') /\ no_zero_edge l').
Proof. intros R. destruct (rc_loop_spec (length l) l (le_n _) R) as [l' [E K]]. exists l'. unfold remove_colinear_pts. rewrite E. split; [reflexivity|exact K]. Qed.
Lemma short_winding l x y : (length l < 4)%nat -> rectilinear l -> winding_number l x y = 0.
Proof.
  assert (K : forall a b, axis_edge (a, b) -> (px a = px b /\ crossing x y (a, b) = 0) \/ (py a = py b /\ crossing x y (a, b) = quad x y a - quad x y b)).
  { intros [a1 a2] [b1 b2]. unfold axis_edge. cbn [fst snd px py]. intros [-> | ->]; [left; rewrite crossing_v; split; reflexivity|right; rewrite crossing_h; split; reflexivity]. }
  assert (Q : forall a b, px a = px b -> py a = py b -> quad x y a = quad x y b) by (intros [a1 a2] [b1 b2]; cbn [px py]; intros -> ->; reflexivity).
  unfold rectilinear, winding_number. intros L R. destruct l as [|a [|b [|c [|d l]]]]; [reflexivity| | |cbn in L |cbn in L; lia];
    rewrite cyc_pedges in *; cbn [app pedges] in *; rewrite ?zsum_cons; unfold zsum; cbn [fold_right].
  - inversion R as [|? ? R1 _]; subst. destruct (K a a R1); lia.
  - inversion R as [|? ? R1 R']; subst. inversion R' as [|? ? R2 _]; subst. destruct (K _ _ R1) as [[A1 ->]|[A1 ->]], (K _ _ R2) as [[A2 ->]|[A2 ->]]; try lia; rewrite (Q a b) by lia; lia.
  - inversion R as [|? ? R1 R']; subst. inversion R' as [|? ? R2 R'']; subst. inversion R'' as [|? ? R3 _]; subst.
    destruct (K _ _ R1) as [[A1 ->]|[A1 ->]], (K _ _ R2) as [[A2 ->]|[A2 ->]], (K _ _ R3) as [[A3 ->]|[A3 ->]]; try lia;
      first [rewrite (Q a b) by lia; lia|rewrite (Q b c) by lia; lia|rewrite (Q c a) by lia; lia].
Qed.
