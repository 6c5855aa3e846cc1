(* Property maps: lookups, sums, and the set of properties with a positive count. *)
From Verif Require Import Base Units Outcome Poly90Spec GeoSpec ArbSpec ArbModel.
From Coq Require Import Sorting.Sorted.

Fixpoint get (m : pmap) (k : Z) : Z :=
  match m with [] => 0 | (k', c) :: m' => if k =? k' then c else get m' k end.
Definition wf (m : pmap) : Prop := StronglySorted Z.lt (map fst m).

Lemma get_none m k : (forall k', In k' (map fst m) -> k < k') -> get m k = 0.
Proof.
  induction m as [|[k' c] m IH]; intros H; cbn [get]; [reflexivity|]. specialize (H k' (or_introl eq_refl)) as K. rewrite (proj2 (Z.eqb_neq _ _)) by lia. apply IH. intros k2 H2. apply H. right. exact H2.
Qed.
Lemma wf_cons k c m : wf ((k, c) :: m) <-> wf m /\ forall k', In k' (map fst m) -> k < k'.
Proof.
  unfold wf. cbn [map fst]. split.
  - intros H. inversion H as [|? ? H1 H2]; subst. split; [exact H1|]. apply Forall_forall. exact H2.
  - intros [H1 H2]. constructor; [exact H1|]. apply Forall_forall. exact H2.
Qed.
Lemma wf_nil : wf [].
Proof. constructor. Qed.
Lemma merge_nil_r a : pm_merge a [] = a.
Proof. destruct a as [|[k c] a]; reflexivity. Qed.
Lemma merge_cons k c a k' c' b : pm_merge ((k, c) :: a) ((k', c') :: b) =
  if k <? k' then (k, c) :: pm_merge a ((k', c') :: b)
  else if k >? k' then (k', c') :: pm_merge ((k, c) :: a) b
  else if c + c' =? 0 then pm_merge a b else (k, c + c') :: pm_merge a b.
Proof. reflexivity. Qed.
Lemma merge_spec a : forall b, wf a -> wf b ->
  wf (pm_merge a b) /\ (forall k, get (pm_merge a b) k = get a k + get b k) /\
  (forall k, In k (map fst (pm_merge a b)) -> In k (map fst a) \/ In k (map fst b)).
Proof.
  induction a as [|[k c] a IHa]; intros b Wa Wb.
  - cbn [pm_merge map get]. split; [exact Wb|]. split; [reflexivity|]. tauto.
  - induction b as [|[k' c'] b IHb].
    + rewrite merge_nil_r. split; [exact Wa|]. split; [intros j; change (get [] j) with 0; lia|]. tauto.
    + assert (Wa' := Wa). assert (Wb' := Wb). apply wf_cons in Wa' as [A1 A2]. apply wf_cons in Wb' as [B1 B2]. rewrite merge_cons. destruct (Z.ltb_spec k k') as [H|H].
      * destruct (IHa ((k', c') :: b) A1 Wb) as [I1 [I2 I3]]. clear IHa IHb. split; [|split].
        -- apply wf_cons. split; [exact I1|]. intros j J. apply I3 in J as [J|J]; [apply A2, J|]. cbn [map fst] in J. destruct J as [<-|J]; [exact H|]. apply B2 in J. lia.
        -- intros j. cbn [get]. rewrite I2. destruct (Z.eqb_spec j k) as [->|N]; [|reflexivity]. cbn [get]. rewrite (proj2 (Z.eqb_neq k k')) by lia. rewrite (get_none b k); [lia|]. intros k2 K2. apply B2 in K2. lia.
        -- intros j [<-|J]; [left; left; reflexivity|]. apply I3 in J as [J|J]; [left; right; exact J|right; exact J].
      * destruct (Z.gtb_spec k k') as [H'|H'].
        -- destruct (IHb B1) as [I1 [I2 I3]]. clear IHa IHb. split; [|split].
           ++ apply wf_cons. split; [exact I1|]. intros j J. apply I3 in J as [J|J]; [|apply B2, J]. cbn [map fst] in J. destruct J as [<-|J]; [exact H'|]. apply A2 in J. lia.
           ++ intros j. cbn [get] in I2 |- *. rewrite I2. destruct (Z.eqb_spec j k') as [->|N]; [|reflexivity]. rewrite (proj2 (Z.eqb_neq k' k)) by lia. rewrite (get_none a k'); [lia|]. intros k2 K2. apply A2 in K2. lia.
           ++ intros j [<-|J]; [right; left; reflexivity|]. apply I3 in J as [J|J]; [left; exact J|right; right; exact J].
        -- assert (k' = k) as -> by lia. destruct (IHa b A1 B1) as [I1 [I2 I3]]. clear IHa IHb.
           assert (G : get a k = 0 /\ get b k = 0) by (split; apply get_none; [exact A2|exact B2]).
           assert (K : forall j, In j (map fst (pm_merge a b)) -> k < j) by (intros j J; apply I3 in J as [J|J]; [apply A2, J|apply B2, J]).
           destruct (Z.eqb_spec (c + c') 0) as [Q|Q].
           ++ split; [exact I1|]. split.
              ** intros j. rewrite I2. cbn [get]. destruct (Z.eqb_spec j k) as [->|N]; lia.
              ** intros j J. apply I3 in J as [J|J]; [left; right; exact J|right; right; exact J].
           ++ split; [apply wf_cons; split; [exact I1|exact K]|]. split.
              ** intros j. cbn [get]. rewrite I2. destruct (Z.eqb_spec j k) as [->|N]; lia.
              ** intros j [<-|J]; [left; left; reflexivity|]. apply I3 in J as [J|J]; [left; right; exact J|right; right; exact J].
Qed.
Lemma update_spec m k c : wf m ->
  wf (pm_update m k c) /\ (forall j, get (pm_update m k c) j = get m j + (if j =? k then c else 0)) /\
  (forall j, In j (map fst (pm_update m k c)) -> j = k \/ In j (map fst m)).
Proof.
  induction m as [|[k' c'] m IH]; intros W.
  - cbn [pm_update]. split; [apply wf_cons; split; [apply wf_nil|intros ? []]|]. split; [intros j; cbn [get]; destruct (j =? k); lia|]. intros j [<-|[]]. left. reflexivity.
  - assert (W' := W). apply wf_cons in W' as [W1 W2]. destruct (IH W1) as [I1 [I2 I3]]. clear IH. cbn [pm_update]. destruct (Z.eqb_spec k k') as [<-|N].
    + assert (G : get m k = 0) by (apply get_none; exact W2). destruct (Z.eqb_spec (c + c') 0) as [Q|Q].
      * split; [exact W1|]. split; [|intros j J; right; right; exact J]. intros j. cbn [get]. destruct (Z.eqb_spec j k) as [->|N]; lia.
      * split; [apply wf_cons; split; assumption|]. split; [|intros j [<-|J]; [left; reflexivity|right; right; exact J]]. intros j. cbn [get]. destruct (Z.eqb_spec j k) as [->|N]; lia.
    + destruct (Z.ltb_spec k k') as [H|H].
      * split; [apply wf_cons; split; [exact W|]; intros j [<-|J]; [exact H|apply W2 in J; cbn [fst] in *; lia]|]. split; [|intros j [<-|J]; [left; reflexivity|right; exact J]].
        intros j. cbn [get]. destruct (Z.eqb_spec j k) as [->|N2]; [|lia]. rewrite (proj2 (Z.eqb_neq k k')) by lia. rewrite (get_none m k); [lia|]. intros k2 K2. apply W2 in K2. lia.
      * split; [apply wf_cons; split; [exact I1|]; intros j J; apply I3 in J as [->|J]; [lia|apply W2, J]|]. split.
        -- intros j. cbn [get]. rewrite I2. destruct (Z.eqb_spec j k') as [->|N2]; [|lia]. rewrite (proj2 (Z.eqb_neq k' k)) by lia. lia.
        -- intros j [<-|J]; [right; left; reflexivity|]. apply I3 in J as [->|J]; [left; reflexivity|right; right; exact J].
Qed.
Lemma update_ne m k c : pm_update m k c = [] -> m <> [].
Proof. destruct m; [discriminate|]. discriminate. Qed.

Lemma set_cover_list m : wf m -> cover_list (get m) (pm_set m).
Proof.
  induction m as [|[k c] m IH]; intros W.
  - split; [constructor|]. intros k. split; [intros []|]. change (get [] k) with 0. lia.
  - apply wf_cons in W as [W1 W2]. destruct (IH W1) as [C1 C2]. clear IH. unfold pm_set in *. cbn [filter snd get].
    assert (KK : forall j, In j (map fst (filter (fun e : Z * Z => snd e >? 0) m)) -> k < j).
    { intros j J. apply W2. apply in_map_iff in J as [e [<- J]]. apply filter_In in J as [J _]. apply in_map, J. }
    assert (G : get m k = 0) by (apply get_none; exact W2).
    destruct (Z.gtb_spec c 0) as [P|P]; cbn [map fst].
    + split; [constructor; [exact C1|apply Forall_forall; exact KK]|]. intros j. cbn [In]. rewrite C2. destruct (Z.eqb_spec j k) as [->|N].
      * split; [lia|]. intros _. left. reflexivity.
      * split; [intros [Q|Q]; [congruence|exact Q]|]. intros Q. right. exact Q.
    + split; [exact C1|]. intros j. rewrite C2. destruct (Z.eqb_spec j k) as [->|N]; [lia|]. reflexivity.
Qed.
Lemma cover_list_ext d d' ks : (forall k, d k = d' k) -> cover_list d ks -> cover_list d' ks.
Proof. intros H [A B]. split; [exact A|]. intros k. rewrite <- H. apply B. Qed.
Lemma sorted_eq a : forall b, StronglySorted Z.lt a -> StronglySorted Z.lt b -> (forall k : Z, In k a <-> In k b) -> a = b.
Proof.
  induction a as [|x a IH]; intros [|y b] A B H.
  - reflexivity.
  - exfalso. apply (H y). left. reflexivity.
  - exfalso. apply (H x). left. reflexivity.
  - inversion A as [|? ? A1 A2]; subst. inversion B as [|? ? B1 B2]; subst. pose proof (proj1 (Forall_forall _ _) A2) as A3. pose proof (proj1 (Forall_forall _ _) B2) as B3.
    assert (x = y) as ->.
    { destruct (proj1 (H x) (or_introl eq_refl)) as [Q|Q]; [congruence|]. destruct (proj2 (H y) (or_introl eq_refl)) as [R|R]; [congruence|]. apply B3 in Q. apply A3 in R. lia. }
    f_equal. apply IH; try assumption. intros k. split; intros K.
    + destruct (proj1 (H k) (or_intror K)) as [Q|Q]; [|exact Q]. subst k. apply A3 in K. lia.
    + destruct (proj2 (H k) (or_intror K)) as [Q|Q]; [|exact Q]. subst k. apply B3 in K. lia.
Qed.
Lemma cover_list_unique d a b : cover_list d a -> cover_list d b -> a = b.
Proof. intros [A1 A2] [B1 B2]. apply sorted_eq; try assumption. intros k. rewrite A2, B2. reflexivity. Qed.
Lemma zs_eqb_iff a : forall b, zs_eqb a b = true <-> a = b.
Proof.
  induction a as [|x a IH]; intros [|y b]; cbn [zs_eqb]; try (split; [discriminate|discriminate]); [split; reflexivity|].
  rewrite andb_true_iff, Z.eqb_eq, IH. split; [intros [-> ->]; reflexivity|]. intros H. split; congruence.
Qed.
