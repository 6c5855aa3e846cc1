(* polygon_90_set_data::interact together with the polygons that get delivers. *)
From Coq Require Import Permutation.
From Verif Require Import Base Outcome Scan90Spec Poly90Spec BoolOpModel Set90Spec Set90Model Poly90Vertices Set90Lemmas Set90Proofs Set90History Set90Cor
  TouchSpec TouchModel TouchStep TouchCor TouchInteract PolyCycle PolyFormSpec PolyFormModel PolyFormCor.

(* lines 789-810; get into polygons without holes, line 795. The call may not be
   s.interact(s) with a set s that is not clean yet. *)
Definition ps_interact_get (s that : pset) : outcome pset :=
  try ' (polys, s1) <- lift (ps_get_polygons true s);
  ps_interact s1 that polys.

Lemma insert_poly_fits s p B : poly_fits B p -> ps_insert_poly s p false <> Overflow.
Proof.
  intros [F3 F4]. unfold ps_insert_poly. pose proof (poly_vertices_fits (ps_orient s) false p B F3 F4) as N.
  destruct (poly_vertices (ps_orient s) false p); cbn [obind]; congruence.
Qed.
Lemma interact_data_fits B o polys : forall c, Forall (poly_fits B) polys -> interact_data o polys c <> Overflow.
Proof.
  induction polys as [|p polys IH]; intros c F; cbn [interact_data]; [discriminate|]. inversion F as [|? ? F1 F2]; subst.
  pose proof (insert_poly_fits (ps_new o) p B F1) as N. destruct (ps_insert_poly (ps_new o) p false) as [s| |]; cbn [obind]; [|congruence|discriminate].
  destruct (conn_insert c s) as [[i c1]|]; [apply IH; exact F2|discriminate].
Qed.
Lemma insert_selected_fits B polys ids : forall s, Forall (poly_fits B) polys -> insert_selected s polys ids <> Overflow.
Proof.
  induction ids as [|i ids IH]; intros s F; cbn [insert_selected]; [discriminate|]. destruct (i <? 1); [discriminate|].
  destruct (nth_error polys (Z.to_nat (i - 1))) as [p|] eqn:Ep; [|discriminate].
  assert (F1 : poly_fits B p) by (rewrite Forall_forall in F; apply F; eapply nth_error_In; exact Ep).
  pose proof (insert_poly_fits s p B F1) as N. destruct (ps_insert_poly s p false) as [s1| |]; cbn [obind]; [apply IH; exact F|congruence|discriminate].
Qed.
Lemma ps_interact_fits B s that polys : Forall (poly_fits B) polys -> ps_interact s that polys <> Overflow.
Proof.
  intros F. unfold ps_interact, interact_ids. destruct (if ps_dirty that then ps_clean that else Some that) as [t|]; [|discriminate].
  match goal with |- context [interact_data ?o polys ?c] => pose proof (interact_data_fits B o polys c F) as N; destruct (interact_data o polys c) as [c1| |] end;
    cbn [obind]; [|congruence|discriminate].
  destruct (performTouch (cn_data c1) (repeat [] (S (length polys)))) as [[|ids g]|]; cbn [obind]; try discriminate.
  pose proof (insert_selected_fits B polys ids (ps_clear s) F) as M. destruct (insert_selected (ps_clear s) polys ids) as [s1| |]; cbn [obind]; congruence.
Qed.

Lemma zsum_ex {A : Type} (g : A -> Z) l : 0 < zsum g l -> exists a, In a l /\ 0 < g a.
Proof.
  induction l as [|a l IH]; [change (zsum g []) with 0; lia|]. unfold zsum. cbn [fold_right]. fold (zsum g l). intros H.
  destruct (Z_lt_dec 0 (g a)) as [Q|Q]; [exists a; split; [left; reflexivity|exact Q]|].
  destruct IH as [b [Hb Gb]]; [lia|]. exists b. split; [right; exact Hb|exact Gb].
Qed.
Lemma zsum_sub {A : Type} (g : A -> Z) : (forall a, 0 <= g a) -> forall sel l, NoDup sel -> incl sel l -> zsum g sel <= zsum g l.
Proof.
  intros G. induction sel as [|a sel IH]; intros l N I.
  - change (zsum g []) with 0. pose proof (proj1 (zsum_nonneg g l (fun a _ => G a))). lia.
  - inversion N as [|? ? N1 N2]; subst. destruct (in_split a l (I a (or_introl eq_refl))) as [l1 [l2 E]].
    assert (I2 : incl sel (l1 ++ l2)).
    { intros b Hb. assert (Hbl : In b l) by (apply I; right; exact Hb). rewrite E in Hbl. apply in_app_iff in Hbl. apply in_app_iff.
      destruct Hbl as [K|[K|K]]; [tauto|subst b; contradiction|tauto]. }
    specialize (IH (l1 ++ l2) N2 I2).
    rewrite (zsum_perm g l (a :: l1 ++ l2)) by (rewrite E; symmetry; apply Permutation_middle).
    unfold zsum in *. cbn [fold_right]. lia.
Qed.
Lemma zsum_idx {A : Type} (g : A -> Z) (l : list A) :
  zsum (fun i => match nthZ l (i - 1) with Some a => g a | None => 0 end) (map Z.of_nat (seq 1 (length l))) = zsum g l.
Proof.
  assert (K : forall l pre, zsum (fun i => match nthZ (pre ++ l) (i - 1) with Some a => g a | None => 0 end) (map Z.of_nat (seq (S (length pre)) (length l))) = zsum g l).
  { clear l. induction l as [|a l IH]; intros pre; [reflexivity|]. cbn [length seq map]. unfold zsum. cbn [fold_right]. f_equal.
    - unfold nthZ. destruct (Z.ltb_spec (Z.of_nat (S (length pre)) - 1) 0) as [H|H]; [lia|].
      replace (Z.to_nat (Z.of_nat (S (length pre)) - 1)) with (length pre) by lia. rewrite nth_error_app2 by lia. rewrite Nat.sub_diag. reflexivity.
    - specialize (IH (pre ++ [a])). rewrite <- app_assoc in IH. cbn [app] in IH. rewrite app_length in IH. cbn [length] in IH. rewrite Nat.add_1_r in IH. exact IH. }
  exact (K l []).
Qed.

Theorem interact_get_spec s that : ps_ok s -> ps_ok that -> (ps_dirty that = true \/ ps_unsorted that = false) ->
  exists polys s1, ps_get_polygons true s = Some (polys, s1) /\ forms polys (ps_covers s) /\ Forall (fun p => p_holes p = []) polys /\
  match ps_interact_get s that with
  | Ok s' => ps_orient s' = ps_orient s /\
      forall x y, (ps_count s' x y = 0 \/ ps_count s' x y = 1) /\
        (ps_covers s' x y <-> exists p, In p polys /\ poly_winding p x y = 1 /\ share_point (ps_covers that) (fun u v => poly_winding p u v = 1))
  | Overflow => forall B, ~ Forall (poly_fits B) polys
  | Undefined => False
  end.
Proof.
  intros O Ot D. destruct (ps_get_polygons_spec true s O) as [polys [s1 [E [_ [Eo [_ [F [H _]]]]]]]]. exists polys, s1. split; [exact E|]. split; [exact F|]. split; [exact (H eq_refl)|].
  unfold ps_interact_get. rewrite E. cbn [lift obind].
  assert (Pok : Forall poly_ok polys) by (eapply Forall_impl; [|exact (proj1 F)]; intros p Hp; apply formed_ok; exact Hp).
  pose proof (interact_spec s1 that polys Ot D Pok) as K. destruct (ps_interact s1 that polys) as [s'| |] eqn:Ei; [|intros B FB; exact (ps_interact_fits B s1 that polys FB Ei)|exact K].
  destruct K as [K1 [sel [K2 [K3 K4]]]]. split; [congruence|]. intros x y.
  assert (G : forall i, 0 <= match nthZ polys (i - 1) with Some p => poly_count p x y | None => 0 end <= 1).
  { intros i. destruct (nthZ polys (i - 1)) as [p|] eqn:Ep; [|lia]. destruct F as [F _]. rewrite Forall_forall in F. specialize (F p (nthZ_In _ _ _ Ep)).
    rewrite formed_count by exact F. destruct F as [_ [_ W]]. specialize (W x y). lia. }
  assert (U : ps_count s' x y <= 1).
  { rewrite K4. etransitivity; [apply (zsum_sub _ (fun i => proj1 (G i)) sel (map Z.of_nat (seq 1 (length polys))) K2)|].
    - intros b Hb. apply K3 in Hb. destruct Hb as [p [Ep _]]. apply nthZ_range in Ep. apply in_map_iff. exists (Z.to_nat b). split; [lia|]. apply in_seq. lia.
    - rewrite (zsum_idx (fun p => poly_count p x y)). destruct F as [F C]. rewrite (zsum_ext _ (fun p => poly_winding p x y)).
      + change (polys_winding polys x y <= 1). destruct (C x y) as [C1 C2]. destruct (Z_lt_dec 0 (ps_count s x y)) as [Q|Q]; [rewrite (C1 Q)|rewrite (C2 Q)]; lia.
      + intros p Hp. apply formed_count. rewrite Forall_forall in F. apply F. exact Hp. }
  destruct (zsum_nonneg (fun i => match nthZ polys (i - 1) with Some p => poly_count p x y | None => 0 end) sel (fun i _ => proj1 (G i))) as [L1 L2].
  assert (L : 0 <= ps_count s' x y) by (rewrite K4; exact L1). split; [lia|].
  assert (Fp : forall p, In p polys -> formed p) by (destruct F as [F _]; rewrite Forall_forall in F; exact F).
  assert (SP : forall p, In p polys -> (share_point (ps_covers that) (poly_covers p) <-> share_point (ps_covers that) (fun u v => poly_winding p u v = 1))).
  { intros p Hp. assert (Q : forall u v, poly_covers p u v <-> poly_winding p u v = 1).
    { intros u v. unfold poly_covers. rewrite formed_count by (apply Fp; exact Hp). destruct (Fp p Hp) as [_ [_ W]]. specialize (W u v). lia. }
    split; intros S; (eapply share_point_iff; [| |exact S]); intros u v; try reflexivity; [apply Q|symmetry; apply Q]. }
  unfold ps_covers at 1. rewrite K4. split.
  - intros P. destruct (zsum_ex _ _ P) as [i [Hi Pi]]. destruct (nthZ polys (i - 1)) as [p|] eqn:Ep; [|lia]. pose proof (nthZ_In _ _ _ Ep) as Hp.
    exists p. split; [exact Hp|]. specialize (G i). rewrite Ep in G. rewrite formed_count in G, Pi by (apply Fp; exact Hp). split; [lia|].
    apply SP; [exact Hp|]. apply K3 in Hi. destruct Hi as [q [Eq Hq]]. assert (p = q) by congruence. subst q. exact Hq.
  - intros [p [Hp [Wp Hs]]]. destruct (In_nth_error _ _ Hp) as [n En].
    assert (Ep : nthZ polys (Z.of_nat (S n) - 1) = Some p) by (unfold nthZ; destruct (Z.ltb_spec (Z.of_nat (S n) - 1) 0); [lia|]; replace (Z.to_nat (Z.of_nat (S n) - 1)) with n by lia; exact En).
    assert (Hi : In (Z.of_nat (S n)) sel) by (apply K3; exists p; split; [exact Ep|]; apply SP; assumption).
    destruct (in_split _ _ Hi) as [l1 [l2 El]]. rewrite El. rewrite PolyFormGaps.zsum_app. unfold zsum at 2. cbn [fold_right].
    match goal with |- context [fold_right ?h 0 l2] => change (fold_right h 0 l2) with (zsum (fun i => match nthZ polys (i - 1) with Some p => poly_count p x y | None => 0 end) l2) end.
    rewrite Ep, formed_count by (apply Fp; exact Hp). rewrite Wp.
    pose proof (proj1 (zsum_nonneg _ l1 (fun i _ => proj1 (G i)))). pose proof (proj1 (zsum_nonneg _ l2 (fun i _ => proj1 (G i)))). lia.
Qed.
