(* The rings of get bound the region. *)
From Verif Require Import Base Units Outcome Scan90Spec Poly90Spec Poly90Model Poly90Proofs PolyCycle Set90Spec Set90Model Set90Lemmas Set90Proofs Set90Cor
  PolyFormGaps PolyFormModel PolyFormLemmas PolyFormGood PolyFormSpec PolyFormRead PolyFormColumns PolyFormCor RingWins.
From Coq Require Import Arith.

Lemma gring_flat P l : gring P true true l -> strict_ring l -> exists cs, l = flat cs /\ (2 <= length cs)%nat /\ Forall (wok P) (wins cs).
Proof.
  intros G [_ [[n E] [L _]]]. destruct (even_flat n l E) as [cs [-> En]]. exists cs. split; [reflexivity|]. assert (L2 : (2 <= length cs)%nat) by lia. split; [exact L2|]. apply wins_ok; assumption.
Qed.

Section Tight.
Variable P : Z -> Z -> bool.
Let Q : Z -> Z -> Prop := fun x y => P x y = true.
Lemma neg_P x y : P x y = negb true -> ~ Q x y.
Proof. unfold Q. cbn [negb]. congruence. Qed.
Lemma hor_left w : wok P w -> region_left Q (hor w).
Proof.
  intros [H _ _ _ _]. unfold hor, region_left. cbn [px py]. cbn [gedge] in H. destruct H as [H1 H2]. split; [intros _ y; split; intros; lia|]. intros _ x. split; intros Hx.
  - destruct (H1 x Hx) as [K1 K2]. split; [exact K1|exact (neg_P _ _ K2)].
  - destruct (H2 x Hx) as [K1 K2]. split; [exact K1|exact (neg_P _ _ K2)].
Qed.
Lemma ver_left w : wok P w -> region_left Q (ver w).
Proof.
  intros [_ H _ _ _]. unfold ver, region_left. cbn [px py]. cbn [gedge] in H. destruct H as [H1 H2]. split; [|intros _ x; split; intros; lia]. intros _ y. split; intros Hy.
  - destruct (H1 y Hy) as [K1 K2]. split; [exact K1|exact (neg_P _ _ K2)].
  - destruct (H2 y Hy) as [K1 K2]. split; [exact K1|exact (neg_P _ _ K2)].
Qed.
Lemma corner_hv w : wok P w -> corner_keeps Q (hor w, ver w).
Proof. intros [_ _ _ _ H]. unfold hor, ver, corner_keeps. cbn [fst snd px py]. rewrite (Z.ltb_irrefl (wc w)), (Z.ltb_irrefl (wb w)), orb_false_r. cbn [orb]. exact H. Qed.
Lemma corner_vh u w : wz w = wb u -> wa w = wc u -> wb w = wd u -> wok P w -> corner_keeps Q (ver u, hor w).
Proof.
  intros E1 E2 E3 [_ _ _ H _]. unfold hor, ver, corner_keeps. cbn [fst snd px py]. rewrite E1, E2, E3 in *. rewrite (Z.ltb_irrefl (wc u)), (Z.ltb_irrefl (wd u)), orb_false_r. cbn [orb]. exact H.
Qed.

Fixpoint adjp {A : Type} (l : list A) : list (A * A) := match l with a :: t => match t with b :: _ => (a, b) :: adjp t | [] => [] end | [] => [] end.
Lemma combine_adjp {A : Type} (l : list A) : forall p q, combine (p :: l) (l ++ [q]) = adjp ((p :: l) ++ [q]).
Proof. induction l as [|b l IH]; intros p q; [reflexivity|]. cbn [app combine adjp]. f_equal. apply IH. Qed.
Lemma corners_go rest : forall z q f w0, wok P w0 -> wz w0 = snd (last rest q) -> wa w0 = fst f -> wb w0 = snd f -> Forall (wok P) (wins_go z q rest f) ->
  Forall (corner_keeps Q) (adjp (flat_map (fun w => [hor w; ver w]) (wins_go z q rest f) ++ [hor w0])).
Proof.
  induction rest as [|r rest IH]; intros z q f w0 W0 E1 E2 E3 F.
  - cbn [wins_go flat_map app adjp] in *. inversion F as [|? ? F1 _]; subst. constructor; [apply corner_hv; exact F1|]. constructor; [|constructor]. apply corner_vh; assumption.
  - cbn [wins_go] in F. inversion F as [|? ? F1 F2]; subst. rewrite last_cons in E1. specialize (IH (snd q) r f w0 W0 E1 E2 E3 F2).
    assert (K : exists w l, wins_go (snd q) r rest f = w :: l /\ wz w = snd q /\ wa w = fst r /\ wb w = snd r) by (destruct rest as [|r2 rest]; cbn [wins_go]; do 2 eexists; repeat split).
    destruct K as [w [l [El [K1 [K2 K3]]]]]. cbn [wins_go flat_map app]. rewrite El in *. cbn [flat_map app] in *. inversion F2 as [|? ? F3 _]; subst.
    cbn [adjp] in *. constructor; [apply corner_hv; exact F1|]. constructor; [|exact IH]. apply corner_vh; [exact K1|exact K2|exact K3|exact F3].
Qed.
Lemma wins_bounds cs : (2 <= length cs)%nat -> Forall (wok P) (wins cs) -> bounds Q (ring_points (flat cs)).
Proof.
  intros L F. split.
  - rewrite wins_edges. apply Forall_flat_map. eapply Forall_impl; [|exact F]. intros w Hw. constructor; [apply hor_left; exact Hw|]. constructor; [apply ver_left; exact Hw|constructor].
  - unfold corners. rewrite wins_edges. destruct cs as [|q rest]; [cbn in L; lia|]. cbn [wins] in *.
    assert (K : exists w l, wins_go (snd (last rest q)) q rest q = w :: l /\ wz w = snd (last rest q) /\ wa w = fst q /\ wb w = snd q) by (destruct rest as [|r2 rest]; cbn [wins_go]; do 2 eexists; repeat split).
    destruct K as [w [l [El [K1 [K2 K3]]]]]. pose proof F as F'. rewrite El in F'. inversion F' as [|? ? Fw _]; subst.
    pose proof (corners_go rest (snd (last rest q)) q q w Fw K1 K2 K3 F) as C. rewrite El in *. cbn [flat_map app tl firstn] in *. pose proof (combine_adjp (ver w :: flat_map (fun w => [hor w; ver w]) l) (hor w) (hor w)) as K. cbn [app] in K. rewrite K. exact C.
Qed.
End Tight.

Lemma tight_bounds (P : Z -> Z -> bool) (R : Z -> Z -> Prop) l : (forall x y, P x y = true <-> R x y) -> strict_ring l -> gring P true true l -> bounds R (ring_points l).
Proof.
  intros E S G. destruct (gring_flat P l G S) as [cs [-> [L F]]]. destruct (wins_bounds P cs L F) as [B1 B2]. split.
  - eapply Forall_impl; [|exact B1]. intros [p q] [H1 H2]. split; intros K z; [destruct (H1 K z) as [H3 H4]|destruct (H2 K z) as [H3 H4]]; rewrite <- !E; tauto.
  - eapply Forall_impl; [|exact B2]. intros [[p q] [p' r]]. unfold corner_keeps. cbn [fst snd]. rewrite <- !E. tauto.
Qed.
Lemma get_bounds_cor st i ps s : reachable st -> ps_get_polygons false (st i) = Some (ps, s) ->
  forall p r, In p ps -> r = p_outer p \/ In r (p_holes p) -> bounds (ps_covers (st i)) (ring_points r).
Proof.
  intros H E p r Hp Hr. destruct (ps_get_polygons_spec false _ (reachable_ok st i H)) as [ps' [s' [E' [_ [_ [_ [[F _] [_ T]]]]]]]]. assert (ps' = ps) by congruence. subst ps'.
  destruct (T eq_refl) as [P [EP T']]. rewrite Forall_forall in F, T'. destruct (F p Hp) as [[F1 _] [F2 _]]. destruct (T' p Hp) as [T1 T2]. rewrite Forall_forall in F2, T2.
  destruct Hr as [-> |Hr]; [apply (tight_bounds P); assumption|]. apply (tight_bounds P); [exact EP|apply (F2 r Hr)|apply (T2 r Hr)].
Qed.
