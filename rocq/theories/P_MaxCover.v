(* C14: the maximal rectangles of a Manhattan polygon set.
   [maximal P r] (MaxCoverSpec): r is not empty, lies in P, and no other
   rectangle in P contains it. *)
From Coq Require Import Permutation.
From Verif Require Import Base Scan90Spec Set90Spec Set90Model Set90Proofs Set90Cor GeoSpec IvlModel RectFormSpec RectFormModel RectFormCor
  MaxCoverSpec MaxCoverModel MaxCoverOrder MaxCoverProofs P_RectForm.

(* get_max_rectangles writes every maximal rectangle of the region once and
   nothing else, whatever order of equivalent elements the sorting of the
   leading edges leaves; the walk over the graph ends (all larger bounds on the
   number of rounds give the same result) and meets no undefined operation *)
Theorem C14_get_max_rectangles : forall st i sort, reachable st -> (forall ns, sorted_leads ns (sort ns)) ->
  exists out, (exists n, forall fuel, (n <= fuel)%nat -> get_max_rectangles fuel sort (st i) = Some out) /\
    NoDup out /\ forall r, In r out <-> maximal (ps_covers (st i)) r.
Proof.
  intros st i sort H Hs. destruct (get_max_rectangles_spec sort _ (reachable_ok st i H) Hs) as [out [n [E [N M]]]].
  exists out. split; [exists n; exact E|]. split; assumption.
Qed.
Print Assumptions C14_get_max_rectangles.

(* a sorting function that meets the hypothesis: insertion sort *)
Fixpoint lead_insert (ns : list srect) (i : nat) (l : list nat) : list nat :=
  match l with
  | [] => [i]
  | j :: l' =>
      match nth_error ns i, nth_error ns j with
      | Some a, Some b => if lead_less b a then j :: lead_insert ns i l' else i :: l
      | _, _ => i :: l
      end
  end.
Definition lead_sort (ns : list srect) : list nat := fold_right (lead_insert ns) [] (seq 0 (length ns)).
Lemma lead_insert_perm ns i l : Permutation (lead_insert ns i l) (i :: l).
Proof.
  induction l as [|j l IH]; [apply Permutation_refl|]. cbn [lead_insert].
  destruct (nth_error ns i) as [a|]; [|apply Permutation_refl]. destruct (nth_error ns j) as [b|]; [|apply Permutation_refl].
  destruct (lead_less b a); [|apply Permutation_refl].
  eapply Permutation_trans; [apply perm_skip, IH|apply perm_swap].
Qed.
Lemma lead_less_spec a b : lead_less a b = true <->
  s_ml a < s_ml b \/ (s_ml a = s_ml b /\ (s_lo a < s_lo b \/ (s_lo a = s_lo b /\ s_hi a < s_hi b))).
Proof.
  unfold lead_less, ivl_less, sr_ivl. cbn [lo hi].
  destruct (Z.ltb_spec (s_ml a) (s_ml b)); [lia|]. destruct (Z.gtb_spec (s_ml a) (s_ml b)); [lia|].
  destruct (Z.eqb_spec (s_lo a) (s_lo b)); cbn [negb]; lia.
Qed.
Lemma lead_less_asym a b : lead_less a b = true -> lead_less b a = false.
Proof. rewrite <- not_true_iff_false, !lead_less_spec. lia. Qed.
Lemma lead_less_trans a b c : lead_less b a = false -> lead_less c b = false -> lead_less c a = false.
Proof. rewrite <- !not_true_iff_false, !lead_less_spec. lia. Qed.
Definition lead_ord (ns : list srect) (i j : nat) : Prop :=
  forall a b, nth_error ns i = Some a -> nth_error ns j = Some b -> lead_less b a = false.
Lemma lead_insert_sorted ns i l : (forall j, In j (i :: l) -> nth_error ns j <> None) ->
  ForallOrdPairs (lead_ord ns) l -> ForallOrdPairs (lead_ord ns) (lead_insert ns i l).
Proof.
  intros D H. induction H as [|j l F H IH]; [constructor; constructor|]. cbn [lead_insert].
  destruct (nth_error ns i) as [a|] eqn:Ea; [|exfalso; apply (D i); [left; reflexivity|exact Ea]].
  destruct (nth_error ns j) as [b|] eqn:Eb; [|exfalso; apply (D j); [right; left; reflexivity|exact Eb]].
  destruct (lead_less b a) eqn:L.
  - constructor; [|apply IH; intros k [<-|Hk]; apply D; [left; reflexivity|right; right; exact Hk]].
    apply Forall_forall. intros k Hk. pose proof (Permutation_in _ (lead_insert_perm ns i l) Hk) as [<-|Hk'].
    + intros x y Ex Ey. assert (x = b) by congruence. assert (y = a) by congruence. subst. apply lead_less_asym, L.
    + rewrite Forall_forall in F. exact (F k Hk').
  - constructor; [|constructor; assumption]. constructor.
    + intros x y Ex Ey. assert (x = a) by congruence. assert (y = b) by congruence. subst. exact L.
    + eapply Forall_impl; [|exact F]. intros k Hk x y Ex Ey. assert (x = a) by congruence. subst x.
      apply (lead_less_trans a b y L). exact (Hk b y Eb Ey).
Qed.
Lemma lead_sort_ok ns : sorted_leads ns (lead_sort ns).
Proof.
  unfold lead_sort.
  assert (G : forall l, (forall j, In j l -> nth_error ns j <> None) ->
    Permutation (fold_right (lead_insert ns) [] l) l /\ ForallOrdPairs (lead_ord ns) (fold_right (lead_insert ns) [] l)).
  { induction l as [|j l IH]; intros D; [split; constructor|]. cbn [fold_right].
    destruct IH as [P O]; [intros k Hk; apply D; right; exact Hk|]. split.
    - eapply Permutation_trans; [apply lead_insert_perm|]. apply perm_skip, P.
    - apply lead_insert_sorted; [|exact O]. intros k [<-|Hk]; apply D; [left; reflexivity|].
      right. exact (Permutation_in _ P Hk). }
  apply G. intros j Hj. apply in_seq in Hj. apply nth_error_Some. lia.
Qed.

Example C14_demo : reachable demo5_store /\ (forall ns, sorted_leads ns (lead_sort ns)) /\
  exists l, get_max_rectangles 100 lead_sort (demo5_store 0%nat) = Some l /\ length l = 6%nat /\
    In (mk_rect 3 5 0 9) l /\ In (mk_rect 0 5 3 5) l /\ In (mk_rect 3 8 5 9) l.
Proof.
  split; [exact demo5_reachable|]. split; [exact lead_sort_ok|]. eexists. split; [vm_compute; reflexivity|].
  split; [reflexivity|]. cbn [In]. tauto.
Qed.
