(* Chains of alternating coordinates: their winding, and the map of the ends of
   the chains. *)
From Verif Require Import Base Units Scan90Spec Poly90Spec Poly90Model Poly90Proofs Set90Model PolyFormGaps PolyFormModel.
From Coq Require Import Arith.

(* ---------- the winding of a chain ---------- *)
(* the corner between two consecutive coordinates; v: the first one is an x *)
Definition pr (x y : Z) (v : bool) (a b : Z) : Z :=
  if v then - b2z ((a <=? x) && (b <=? y)) else b2z ((b <=? x) && (a <=? y)).
Fixpoint ck (x y : Z) (v : bool) (l : list Z) : Z :=
  match l with
  | a :: l' => match l' with b :: _ => pr x y v a b + ck x y (negb v) l' | [] => 0 end
  | [] => 0
  end.
Lemma ck_cons x y v a b l : ck x y v (a :: b :: l) = pr x y v a b + ck x y (negb v) (b :: l).
Proof. reflexivity. Qed.
Definition vat (v : bool) (l : list Z) : bool := xorb v (Nat.odd (length l)).
Lemma vat_nil v : vat v [] = v.
Proof. unfold vat. cbn. apply xorb_false_r. Qed.
Lemma vat_cons v a l : vat v (a :: l) = vat (negb v) l.
Proof. unfold vat. cbn [length]. rewrite Nat.odd_succ, <- Nat.negb_odd. destruct v, (Nat.odd (length l)); reflexivity. Qed.
Lemma vat_app v l m : vat v (l ++ m) = vat (vat v l) m.
Proof. unfold vat. rewrite app_length, Nat.odd_add, xorb_assoc. reflexivity. Qed.
Lemma vat_rev v l : vat v (rev l) = vat v l.
Proof. unfold vat. rewrite rev_length. reflexivity. Qed.
Lemma vat_negb v l : vat (negb v) l = negb (vat v l).
Proof. unfold vat. destruct v, (Nat.odd (length l)); reflexivity. Qed.
Lemma vat_vat v l : vat (vat v l) l = v.
Proof. unfold vat. destruct v, (Nat.odd (length l)); reflexivity. Qed.
Lemma even_vat v l : xorb v (Nat.even (length l)) = negb (vat v l).
Proof. unfold vat. rewrite <- Nat.negb_odd. destruct v, (Nat.odd (length l)); reflexivity. Qed.

Lemma ck_split x y l : forall v a m, ck x y v (l ++ a :: m) = ck x y v (l ++ [a]) + ck x y (vat v l) (a :: m).
Proof.
  induction l as [|b l IH]; intros v a m.
  - cbn [app]. rewrite vat_nil. cbn [ck]. lia.
  - cbn [app]. rewrite vat_cons. specialize (IH (negb v) a m). destruct l as [|c l]; cbn [app] in *; rewrite !ck_cons; lia.
Qed.
Lemma pr_flip x y v a b : pr x y (negb v) b a = - pr x y v a b.
Proof. unfold pr. destruct v; cbn [negb]; lia. Qed.
Lemma ck_rev x y l : forall v, ck x y (negb (vat v l)) (rev l) = - ck x y v l.
Proof.
  induction l as [|a l IH]; intros v; [reflexivity|]. destruct l as [|b l]; [reflexivity|].
  rewrite ck_cons. rewrite !vat_cons, negb_involutive. cbn [rev]. rewrite <- app_assoc. cbn [app]. rewrite ck_split.
  specialize (IH (negb v)). rewrite vat_cons, negb_involutive in IH. cbn [rev] in IH. rewrite IH.
  rewrite vat_negb, vat_rev, vat_vat. cbn [ck]. rewrite pr_flip. lia.
Qed.
(* the roles of the two coordinates exchanged *)
Lemma ck_swap x y l : forall v, ck y x (negb v) l = - ck x y v l.
Proof.
  induction l as [|a l IH]; intros v; [reflexivity|]. destruct l as [|b l]; [reflexivity|].
  rewrite !ck_cons, IH. unfold pr. destruct v; cbn [negb]; rewrite (andb_comm (_ <=? y)); lia.
Qed.

(* all x coordinates are at most X *)
Fixpoint xle (X : Z) (v : bool) (l : list Z) : Prop :=
  match l with [] => True | a :: l' => (v = true -> a <= X) /\ xle X (negb v) l' end.
Lemma xle_app X l : forall v m, xle X v (l ++ m) <-> xle X v l /\ xle X (vat v l) m.
Proof.
  induction l as [|a l IH]; intros v m; cbn [app xle].
  - rewrite vat_nil. tauto.
  - rewrite IH, vat_cons. tauto.
Qed.
Lemma xle_rev X l : forall v, xle X v l -> xle X (negb (vat v l)) (rev l).
Proof.
  induction l as [|a l IH]; intros v; cbn [rev xle]; [tauto|]. intros [H1 H2]. apply xle_app. rewrite vat_cons.
  split; [apply IH; exact H2|]. rewrite vat_negb, vat_rev, vat_vat, negb_involutive. cbn [xle]. tauto.
Qed.
Lemma xle_mono X X' l : X <= X' -> forall v, xle X v l -> xle X' v l.
Proof. intros H. induction l as [|a l IH]; intros v; cbn [xle]; [tauto|]. intros [H1 H2]. split; [intros K; specialize (H1 K); lia|apply IH; exact H2]. Qed.
(* to the right of all x coordinates the sum telescopes *)
Definition sy (y : Z) (v : bool) (a : Z) : Z := if v then 0 else b2z (a <=? y).
Lemma ck_tele X x y l : X <= x -> forall v a, xle X v (a :: l) -> ck x y v (a :: l) = sy y v a - sy y (vat v l) (last l a).
Proof.
  intros L. induction l as [|b l IH]; intros v a H.
  - cbn [last]. rewrite vat_nil. cbn [ck]. lia.
  - rewrite ck_cons, vat_cons. cbn [xle] in H. destruct H as [H1 H2]. rewrite IH by (cbn [xle]; exact H2).
    replace (last (b :: l) a) with (last l b) by (destruct l as [|c l]; [reflexivity|symmetry; exact (last_dflt l c a b)]).
    enough (pr x y v a b + sy y (negb v) b = sy y v a) by lia. destruct H2 as [H2 _]. unfold pr, sy. destruct v; cbn [negb] in *.
    + specialize (H1 eq_refl). replace (a <=? x) with true by lia. cbn [andb]. lia.
    + specialize (H2 eq_refl). replace (b <=? x) with true by lia. cbn [andb]. lia.
Qed.

(* ---------- coordinates two apart differ ---------- *)
Fixpoint prop2 (l : list Z) : Prop :=
  match l with
  | a :: l' => match l' with b :: c :: _ => a <> c | _ => True end /\ prop2 l'
  | [] => True
  end.
Lemma prop2_cons3 a b c l : prop2 (a :: b :: c :: l) <-> a <> c /\ prop2 (b :: c :: l).
Proof. reflexivity. Qed.
Lemma prop2_tl a l : prop2 (a :: l) -> prop2 l.
Proof. intros [_ H]. exact H. Qed.
Lemma prop2_join u a b c d m : prop2 (u ++ [a; b]) -> prop2 (c :: d :: m) -> a <> c -> b <> d -> prop2 (u ++ a :: b :: c :: d :: m).
Proof.
  intros P Q N1 N2. induction u as [|e u IH].
  - cbn [app]. rewrite !prop2_cons3. tauto.
  - cbn [app] in *. pose proof (IH (prop2_tl _ _ P)) as R. split; [|exact R]. destruct P as [P _].
    destruct u as [|f [|g u]]; cbn [app] in *; [exact P|exact P|exact P].
Qed.
Lemma prop2_snoc u a b c : prop2 (u ++ [a; b]) -> a <> c -> prop2 (u ++ [a; b; c]).
Proof.
  intros P N1. induction u as [|e u IH].
  - cbn [app]. rewrite !prop2_cons3. cbn. tauto.
  - cbn [app] in *. pose proof (IH (prop2_tl _ _ P)) as R. split; [|exact R]. destruct P as [P _].
    destruct u as [|f [|g u]]; cbn [app] in *; [exact P|exact P|exact P].
Qed.
Lemma prop2_app_l u v : prop2 (u ++ v) -> prop2 u.
Proof.
  induction u as [|a u IH]; intros P; [exact I|]. cbn [app] in P. split; [|apply IH; exact (prop2_tl _ _ P)].
  destruct P as [P _]. destruct u as [|b [|c u]]; cbn [app] in *; [exact I|exact I|exact P].
Qed.
Lemma prop2_rev l : prop2 l -> prop2 (rev l).
Proof.
  induction l as [|a l IH]; intros P; [exact I|]. destruct l as [|b [|c l]]; cbn; [tauto|tauto|].
  rewrite prop2_cons3 in P. destruct P as [N P]. specialize (IH P). cbn [rev] in IH.
  repeat rewrite <- app_assoc in *. cbn [app] in *. apply prop2_snoc; [exact IH|congruence].
Qed.

(* ---------- closed chains ---------- *)
Definition cyc (x y : Z) (v : bool) (l : list Z) : Z := match l with [] => 0 | a :: _ => ck x y v (l ++ [a]) end.
Lemma cyc_rotate x y v a l : Nat.Even (length (a :: l)) -> cyc x y (negb v) (l ++ [a]) = cyc x y v (a :: l).
Proof.
  intros E. destruct l as [|b l]; [destruct E as [k E]; cbn [length] in E; lia|].
  unfold cyc. cbn [app]. rewrite ck_cons. change (b :: (l ++ [a]) ++ [b]) with (((b :: l) ++ [a]) ++ [b]).
  rewrite <- app_assoc. cbn [app]. change (b :: l ++ [a; b]) with ((b :: l) ++ a :: [b]). rewrite ck_split. cbn [app].
  replace (vat (negb v) (b :: l)) with v; [cbn [ck]; lia|].
  apply Nat.even_spec in E. unfold vat. cbn [length] in E |- *. rewrite Nat.even_succ in E. rewrite E. destruct v; reflexivity.
Qed.
Lemma cyc_rev x y v l : Nat.Even (length l) -> cyc x y (negb v) (rev l) = - cyc x y v l.
Proof.
  intros E. destruct l as [|a l]; [reflexivity|]. cbn [rev]. rewrite cyc_rotate.
  2:{ cbn [length] in *. rewrite rev_length. exact E. }
  unfold cyc. cbn [app]. rewrite <- (ck_rev x y (a :: l ++ [a]) v). cbn [rev]. rewrite rev_app_distr. cbn [rev app]. f_equal.
  apply Nat.even_spec in E. unfold vat. cbn [length] in E |- *. rewrite app_length, Nat.add_comm. cbn [length Nat.add].
  rewrite !Nat.odd_succ, Nat.even_succ, <- Nat.negb_even. rewrite Nat.even_succ in E. rewrite <- Nat.negb_even in E.
  destruct (Nat.even (length l)); [discriminate E|]. destruct v; reflexivity.
Qed.
Lemma cyc_swap x y v l : cyc y x (negb v) l = - cyc x y v l.
Proof. destruct l as [|a l]; [reflexivity|]. unfold cyc. apply ck_swap. Qed.
Lemma cyc_left X x y a l : Nat.Even (length (a :: l)) -> x < X -> a = X -> cyc x y true (a :: l) = ck x y true (a :: l).
Proof.
  intros E L ->. unfold cyc. destruct (exists_last (l := X :: l)) as [m [z Ez]]; [discriminate|]. rewrite Ez, <- app_assoc. cbn [app].
  rewrite ck_split. cbn [ck]. replace (vat true m) with false.
  2:{ apply Nat.even_spec in E. rewrite Ez, app_length in E. cbn [length] in E. rewrite Nat.add_comm in E. cbn [Nat.add] in E.
      rewrite Nat.even_succ in E. unfold vat. rewrite E. reflexivity. }
  unfold pr. replace (X <=? x) with false by lia. cbn [andb b2z]. lia.
Qed.
Lemma cyc_right X x y l : Nat.Even (length l) -> X <= x -> xle X true l -> cyc x y true l = 0.
Proof.
  intros E L H. destruct l as [|a l]; [reflexivity|]. unfold cyc. cbn [app]. rewrite (ck_tele X x y _ L).
  - rewrite last_app1. replace (vat true (l ++ [a])) with true; [lia|].
    apply Nat.even_spec in E. unfold vat. rewrite app_length, Nat.add_comm. cbn [length Nat.add] in *. rewrite Nat.even_succ in E.
    rewrite Nat.odd_succ, <- Nat.negb_odd, E. reflexivity.
  - change (a :: l ++ [a]) with ((a :: l) ++ [a]). apply xle_app. split; [exact H|]. cbn [xle]. split; [|exact I].
    intros _. destruct H as [H _]. apply H. reflexivity.
Qed.
(* the winding number of a ring *)
Lemma ring_ck x y cs : forall fx, ring_sum (quad x y) fx cs = - ck x y true (flat cs ++ [fx]).
Proof.
  induction cs as [|[a b] cs IH]; intros fx; [reflexivity|]. cbn [ring_sum]. rewrite IH.
  change (flat ((a, b) :: cs)) with (a :: b :: flat cs). cbn [app]. rewrite ck_cons.
  destruct cs as [|[a' b'] cs].
  - cbn [flat flat_map app]. rewrite ck_cons. cbn [ck negb]. unfold pr, quad. cbn [px py]. lia.
  - change (flat ((a', b') :: cs)) with (a' :: b' :: flat cs). cbn [app negb]. rewrite (ck_cons x y false b a'). unfold pr, quad. cbn [px py negb]. lia.
Qed.
Lemma winding_cyc l x y : Nat.Even (length l) -> winding_number (ring_points l) x y = - cyc x y true l.
Proof.
  intros [n E]. destruct (even_flat n l E) as [cs [-> _]]. destruct cs as [|[a b] cs]; [reflexivity|].
  unfold winding_number. replace (ring_points (flat ((a, b) :: cs))) with (rp a ((a, b) :: cs)).
  2:{ rewrite <- ring_points_flat. reflexivity. }
  cbn [rp]. rewrite cyc_pedges. change (mk_pt a b :: mk_pt (match cs with [] => a | (x', _) :: _ => x' end) b :: rp a cs) with (rp a ((a, b) :: cs)).
  rewrite winding_ring by reflexivity. rewrite ring_ck. reflexivity.
Qed.

(* closed chains whose neighbouring edges are perpendicular and have positive length *)
Definition cprop (l : list Z) : Prop := exists a b m c d, l = a :: b :: m ++ [c; d] /\ prop2 l /\ c <> a /\ d <> b.
Lemma cprop_rotate a l : cprop (a :: l) -> cprop (l ++ [a]).
Proof.
  intros [a0 [b [m [c [d [E [P [N1 N2]]]]]]]]. injection E as <- ->.
  assert (P' : prop2 (b :: m ++ [c; d; a])).
  { apply prop2_tl in P. change (b :: m ++ [c; d]) with ((b :: m) ++ [c; d]) in P.
    change (b :: m ++ [c; d; a]) with ((b :: m) ++ [c; d; a]). apply prop2_snoc; [exact P|exact N1]. }
  destruct m as [|e m]; cbn [app] in *.
  - exists b, c, [], d, a. split; [reflexivity|]. split; [exact P'|]. split; [exact N2|congruence].
  - exists b, e, (m ++ [c]), d, a. split; [apps; reflexivity|]. split; [apps; exact P'|].
    split; [exact N2|]. destruct P as [P _]. exact P.
Qed.
Lemma cprop_rev l : cprop l -> cprop (rev l).
Proof.
  intros [a [b [m [c [d [E [P [N1 N2]]]]]]]]. exists d, c, (rev m), b, a. split; [|split; [apply prop2_rev; exact P|split; congruence]].
  rewrite E. cbn [rev]. rewrite rev_app_distr. cbn [rev app]. apps. reflexivity.
Qed.

(* ---------- the map ---------- *)
Definition keys (m : tmap) : list Z := map fst m.
Definition ids (m : tmap) : list nat := map snd m.
Definition ksorted (m : tmap) : Prop := StronglySorted Z.lt (keys m).
Lemma ksorted_cons k v m : ksorted ((k, v) :: m) <-> ksorted m /\ Forall (fun e => k < fst e) m.
Proof.
  unfold ksorted, keys. cbn [map fst]. split.
  - intros S. apply StronglySorted_inv in S. destruct S as [S F]. split; [exact S|]. rewrite Forall_map in F. exact F.
  - intros [S F]. constructor; [exact S|]. rewrite Forall_map. exact F.
Qed.
Lemma ksorted_app m1 m2 : ksorted (m1 ++ m2) <-> ksorted m1 /\ ksorted m2 /\ (forall a b, In a m1 -> In b m2 -> fst a < fst b).
Proof.
  induction m1 as [|[k v] m1 IH]; cbn [app].
  - split; [intros S; split; [constructor|split; [exact S|intros a b []]]|tauto].
  - rewrite !ksorted_cons, IH, Forall_app. rewrite !Forall_forall. split.
    + intros [[S1 [S2 S3]] [F1 F2]]. split; [tauto|]. split; [tauto|]. intros a b [<-|Ha] Hb; [apply F2; exact Hb|apply S3; assumption].
    + intros [[S1 F1] [S2 S3]]. split; [split; [exact S1|]; split; [exact S2|intros a b Ha Hb; apply S3; [right|]; assumption]|].
      split; [exact F1|]. intros b Hb. apply (S3 (k, v) b); [left; reflexivity|exact Hb].
Qed.
Lemma find_out k m : Forall (fun e => fst e <> k) m -> m_find k m = None.
Proof. induction 1 as [|[k' v] m N F IH]; [reflexivity|]. cbn [m_find fst] in *. destruct (Z.eqb_spec k' k); [contradiction|exact IH]. Qed.
Lemma erase_out k m : Forall (fun e => fst e <> k) m -> m_erase k m = m.
Proof.
  induction 1 as [|[k' v] m N F IH]; [reflexivity|]. unfold m_erase in *. cbn [filter fst] in *. destruct (Z.eqb_spec k' k); [contradiction|]. cbn [negb]. rewrite IH. reflexivity.
Qed.
Lemma assign_out k v m : Forall (fun e => fst e <> k) m -> m_assign k v m = m.
Proof.
  induction 1 as [|[k' v'] m N F IH]; [reflexivity|]. unfold m_assign in *. cbn [map fst] in *. destruct (Z.eqb_spec k' k); [contradiction|]. rewrite IH. reflexivity.
Qed.
Lemma next_skip k m1 m2 : Forall (fun e => fst e <= k) m1 -> m_next k (m1 ++ m2) = m_next k m2.
Proof.
  induction 1 as [|[k' v'] m N F IH]; [reflexivity|]. unfold m_next in *. cbn [app find fst] in *. replace (k <? k') with false by lia. exact IH.
Qed.
Lemma next_head k m : Forall (fun e => k < fst e) m -> m_next k m = m_begin m.
Proof. intros F. destruct m as [|[k' v'] m]; [reflexivity|]. inversion F as [|a b H1 H2]; subst. unfold m_next. cbn [find fst] in *. replace (k <? k') with true by lia. reflexivity. Qed.
Lemma insert_mid k v m1 m2 : Forall (fun e => fst e < k) m1 -> Forall (fun e => k < fst e) m2 -> m_insert k v (m1 ++ m2) = m1 ++ (k, v) :: m2.
Proof.
  intros F1 F2. induction F1 as [|[k' v'] m N F IH]; cbn [app m_insert fst] in *.
  - destruct m2 as [|[k' v'] m2]; [reflexivity|]. inversion F2 as [|a b H1 H2]; subst. cbn [fst m_insert] in *. replace (k <? k') with true by lia. reflexivity.
  - replace (k <? k') with false by lia. replace (k' <? k) with true by lia. rewrite IH. reflexivity.
Qed.
Lemma Forall_lt_ne k (m : tmap) : Forall (fun e => fst e < k) m -> Forall (fun e => fst e <> k) m.
Proof. apply Forall_impl. intros; lia. Qed.
Lemma Forall_gt_ne k (m : tmap) : Forall (fun e => k < fst e) m -> Forall (fun e => fst e <> k) m.
Proof. apply Forall_impl. intros; lia. Qed.
Lemma find_mid k v m1 m2 : Forall (fun e => fst e < k) m1 -> m_find k (m1 ++ (k, v) :: m2) = Some v.
Proof.
  induction 1 as [|[k' v'] m N F IH]; cbn [app m_find fst] in *; [rewrite Z.eqb_refl; reflexivity|].
  destruct (Z.eqb_spec k' k); [lia|exact IH].
Qed.
Lemma erase_mid k v m1 m2 : Forall (fun e => fst e < k) m1 -> Forall (fun e => k < fst e) m2 -> m_erase k (m1 ++ (k, v) :: m2) = m1 ++ m2.
Proof.
  intros F1 F2. unfold m_erase. rewrite filter_app. cbn [filter fst]. rewrite Z.eqb_refl. cbn [negb].
  change (m_erase k m1 ++ m_erase k m2 = m1 ++ m2). rewrite !erase_out; [reflexivity|apply Forall_gt_ne; exact F2|apply Forall_lt_ne; exact F1].
Qed.
Lemma assign_mid k v v' m1 m2 : Forall (fun e => fst e < k) m1 -> Forall (fun e => k < fst e) m2 -> m_assign k v' (m1 ++ (k, v) :: m2) = m1 ++ (k, v') :: m2.
Proof.
  intros F1 F2. unfold m_assign. rewrite map_app. cbn [map fst]. rewrite Z.eqb_refl.
  change (m_assign k v' m1 ++ (k, v') :: m_assign k v' m2 = m1 ++ (k, v') :: m2). rewrite !assign_out; [reflexivity|apply Forall_gt_ne; exact F2|apply Forall_lt_ne; exact F1].
Qed.
(* the position of a key *)
Lemma msplit k m : ksorted m -> exists m1 m2, Forall (fun e => fst e < k) m1 /\ Forall (fun e => k < fst e) m2 /\
  ((m = m1 ++ m2 /\ m_find k m = None /\ ~ In k (keys m)) \/ (exists v, m = m1 ++ (k, v) :: m2 /\ m_find k m = Some v /\ In k (keys m))).
Proof.
  induction m as [|[k' v'] m IH]; intros S.
  - exists [], []. split; [constructor|]. split; [constructor|]. left. split; [reflexivity|]. split; [reflexivity|]. intros [].
  - apply ksorted_cons in S. destruct S as [S F]. destruct (Z_lt_dec k' k) as [L|L].
    + destruct (IH S) as [m1 [m2 [F1 [F2 D]]]]. exists ((k', v') :: m1), m2. split; [constructor; [exact L|exact F1]|]. split; [exact F2|].
      destruct D as [[E [Fi N]]|[v [E [Fi N]]]].
      * left. split; [rewrite E; reflexivity|]. split; [cbn [m_find]; destruct (Z.eqb_spec k' k); [lia|exact Fi]|].
        intros [K|K]; [cbn [fst] in K; lia|]. exact (N K).
      * right. exists v. split; [rewrite E; reflexivity|]. split; [cbn [m_find]; destruct (Z.eqb_spec k' k); [lia|exact Fi]|]. right. exact N.
    + destruct (Z.eq_dec k' k) as [->|D].
      * exists [], m. split; [constructor|]. split; [exact F|]. right. exists v'. split; [reflexivity|]. cbn [m_find]. rewrite Z.eqb_refl. split; [reflexivity|]. left. reflexivity.
      * assert (F' : Forall (fun e => k < fst e) ((k', v') :: m)).
        { constructor; [cbn [fst]; lia|]. revert F. apply Forall_impl. intros; lia. }
        exists [], ((k', v') :: m). split; [constructor|]. split; [exact F'|]. left. split; [reflexivity|].
        split; [apply find_out, Forall_gt_ne, F'|]. intros K. apply in_map_iff in K. destruct K as [e [E K]]. rewrite Forall_forall in F'. specialize (F' e K). lia.
Qed.
