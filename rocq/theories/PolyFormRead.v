(* Reading a closed figure from the heap. *)
From Verif Require Import Base Units Scan90Spec Poly90Spec PolySpec Poly90Model Poly90Proofs Set90Spec Set90Model PolyFormGaps PolyFormModel PolyFormLemmas PolyFormHeap PolyFormClose PolyFormGood PolyFormFlags PolyFormState PolyFormSpec.
From Coq Require Import Arith.

Lemma rp_nz fx y0 cs : prop2 (flat cs ++ [fx; y0]) -> Forall (fun e : point * point => fst e <> snd e) (pedges (rp fx cs ++ [mk_pt fx y0])).
Proof.
  induction cs as [|[x y] cs IH]; intros P; [constructor|]. change (flat ((x, y) :: cs)) with (x :: y :: flat cs) in P.
  destruct cs as [|[x' y'] cs].
  - cbn in P. cbn [rp app pedges]. constructor; [cbn [fst snd]; intros E; injection E; tauto|]. constructor; [cbn [fst snd]; intros E; injection E; tauto|]. constructor.
  - specialize (IH (prop2_tl _ _ (prop2_tl _ _ P))). change (flat ((x', y') :: cs)) with (x' :: y' :: flat cs) in P. cbn [app] in P. rewrite !prop2_cons3 in P. destruct P as [N1 P].
    assert (N2 : y <> y') by (destruct P as [N2 _]; exact N2). cbn [rp app pedges] in *.
    constructor; [cbn [fst snd]; intros E; injection E; tauto|]. constructor; [cbn [fst snd]; intros E; injection E; tauto|]. exact IH.
Qed.
Lemma cprop_closed l : cprop l -> exists a b m, l = a :: b :: m /\ prop2 (l ++ [a; b]) /\ (4 <= length l)%nat.
Proof.
  intros [a [b [m [c [d [E [P [N1 N2]]]]]]]]. exists a, b, (m ++ [c; d]). split; [exact E|]. rewrite E in P |- *. split.
  - change (a :: b :: m ++ [c; d]) with ((a :: b :: m) ++ [c; d]) in *. rewrite <- app_assoc. cbn [app]. change (a :: b :: m ++ [c; d; a; b]) with ((a :: b :: m) ++ c :: d :: a :: b :: []).
    apply prop2_join; [exact P|cbn; tauto|exact N1|exact N2].
  - cbn [length]. rewrite app_length. cbn [length]. lia.
Qed.
Lemma cprop_strict l : Forall is_int l -> Nat.Even (length l) -> cprop l -> strict_ring l.
Proof.
  intros I E C. destruct (cprop_closed l C) as [a [b [m [El [P L4]]]]]. split; [exact I|]. split; [exact E|]. split; [exact L4|].
  destruct E as [n E]. destruct (even_flat n l E) as [cs [Ec _]]. unfold no_zero_edge.
  destruct cs as [|[a' b'] cs]; [subst l; discriminate|]. change (flat ((a', b') :: cs)) with (a' :: b' :: flat cs) in Ec. rewrite El in Ec. injection Ec as <- <- Em.
  replace (ring_points l) with (rp a ((a, b) :: cs)).
  2:{ rewrite <- ring_points_flat. rewrite El, Em. reflexivity. }
  cbn [rp]. rewrite cyc_pedges. change (mk_pt a b :: mk_pt (match cs with [] => a | (x', _) :: _ => x' end) b :: rp a cs) with (rp a ((a, b) :: cs)).
  apply rp_nz. change (flat ((a, b) :: cs)) with (a :: b :: flat cs). rewrite <- Em, <- El. exact P.
Qed.

Definition turn {A : Type} (o : orient) (f : Z -> Z -> A) (x y : Z) : A := match o with Vertical => f x y | Horizontal => f y x end.
Lemma turn_turn {A : Type} o (f : Z -> Z -> A) x y : turn o (turn o f) x y = f x y.
Proof. destruct o; reflexivity. Qed.

Lemma read_fig X h o is_hole k : ring_fig X h k -> exists r, read_figure h o is_hole k = Some r /\ strict_ring r /\
  (forall x y, winding_number (ring_points r) x y = (if is_hole then -1 else 1) * turn o (fun a b => RW h a b k) x y) /\
  forall Rg, gr Rg h is_hole k -> gring (turn o Rg) true true r.
Proof.
  intros [t [ot [[M1 M2 M3 M4 M5] [V [R1 [R2 [R3 R4]]]]]]]. unfold read_figure. rewrite M1. cbn [bind].
  assert (Vo : t_vert ot = false).
  { rewrite M5, V. unfold vat. apply Nat.even_spec in R1. unfold Nat.odd. rewrite R1. reflexivity. }
  assert (El : Nat.Even (length (rev (t_line t)))) by (rewrite rev_length; exact R1).
  assert (Ir : Forall is_int (rev (t_line t))) by (apply Forall_rev; exact R4).
  assert (Cr : cprop (rev (t_line t))) by (apply cprop_rev; exact R2).
  assert (L4 : (4 <= length (t_line t))%nat) by (destruct (cprop_closed _ R2) as [? [? [? [_ [_ K]]]]]; exact K).
  assert (Gk : forall Rg d, gr Rg h d k -> gring Rg d true (t_line t)) by (intros Rg d [t1 [E1 G]]; rewrite M1 in E1; injection E1 as <-; exact G).
  assert (Rot : forall l v, Nat.Even (length l) -> Forall is_int l -> cprop l -> exists r, match l with c :: l' => Some (l' ++ [c]) | [] => None end = Some r /\ strict_ring r /\
    Nat.Even (length r) /\ (forall x y, cyc x y (negb v) r = cyc x y v l) /\ forall Rg d, gring Rg d v l -> gring Rg d (negb v) r).
  { intros l v E I C. destruct l as [|c l]; [destruct C as [? [? [? [? [? [C _]]]]]]; discriminate C|]. exists (l ++ [c]). split; [reflexivity|].
    assert (E' : Nat.Even (length (l ++ [c]))) by (rewrite app_length, Nat.add_comm; exact E). split; [|split; [exact E'|split; [intros x y; apply cyc_rotate; exact E|]]].
    2:{ intros Rg d. apply gring_rotate; [exact E|]. destruct C as [? [? [? [? [? [C _]]]]]]. rewrite C. cbn [length]. rewrite app_length. cbn [length]. lia. }
    apply cprop_strict; [apply Forall_app; inversion I; subst; split; [assumption|constructor; [assumption|constructor]]|exact E'|apply cprop_rotate; exact C]. }
  destruct o, is_hole; cbn [negb xorb]; rewrite ?M1, ?M2; cbn [bind]; rewrite ?V, ?Vo; cbn [negb xorb].
  - rewrite M4. exists (rev (t_line t)). split; [reflexivity|]. split; [apply cprop_strict; assumption|]. split; [|intros Rg G; apply Gk, (gring_rev _ _ _ _ R1 L4), gring_swap in G; exact G]. intros x y. rewrite winding_cyc by exact El. cbn [turn]. unfold RW. rewrite M1.
    change true with (negb false) at 1. rewrite cyc_rev by exact R1. pose proof (cyc_swap y x true (t_line t)) as K. cbn [negb] in K. lia.
  - destruct (Rot (t_line t) true R1 R4 R2) as [r [Er [S [Ev [C Gr]]]]]. rewrite Er. exists r. split; [reflexivity|]. split; [exact S|]. split; [|intros Rg G; apply Gk, Gr, gring_swap in G; exact G]. intros x y. rewrite winding_cyc by exact Ev. cbn [turn]. unfold RW. rewrite M1.
    pose proof (cyc_swap y x false r) as K1. cbn [negb] in K1. specialize (C y x). cbn [negb] in C. lia.
  - exists (t_line t). split; [reflexivity|]. split; [apply cprop_strict; assumption|]. split; [|intros Rg G; apply Gk in G; exact G]. intros x y. rewrite winding_cyc by exact R1. cbn [turn]. unfold RW. rewrite M1. lia.
  - rewrite M4. destruct (Rot (rev (t_line t)) false El Ir Cr) as [r [Er [S [Ev [C Gr]]]]]. rewrite Er. exists r. split; [reflexivity|]. split; [exact S|]. split; [|intros Rg G; apply Gk, (gring_rev _ _ _ _ R1 L4), Gr in G; exact G]. intros x y. rewrite winding_cyc by exact Ev. cbn [turn]. unfold RW. rewrite M1.
    specialize (C x y). cbn [negb] in C. rewrite C. pose proof (cyc_rev x y true (t_line t) R1) as K. cbn [negb] in K. lia.
Qed.

Lemma zsum_turn {A : Type} o (f : A -> Z -> Z -> Z) l x y : zsum (fun a => turn o (f a) x y) l = turn o (fun u v => zsum (fun a => f a u v) l) x y.
Proof. destruct o; reflexivity. Qed.

Lemma read_holes X h q o : forall l, (forall k, In k l -> cl X h q k) -> exists rs, map_option (read_figure h o true) l = Some rs /\ Forall cw_ring rs /\
  (forall x y, zsum (fun r => winding_number (ring_points r) x y) rs = - turn o (fun a b => zsum (RW h a b) l) x y) /\
  forall Rg, (forall k, In k l -> gr Rg h true k) -> Forall (gring (turn o Rg) true true) rs.
Proof.
  induction l as [|k l IH]; intros H.
  - exists []. split; [reflexivity|]. split; [constructor|]. split; [intros x y; destruct o; reflexivity|intros; constructor].
  - destruct IH as [rs [E [F [Z0 G]]]]; [intros j Hj; apply H; right; exact Hj|]. destruct (H k (or_introl eq_refl)) as [_ [_ [R U]]].
    destruct (read_fig X h o true k R) as [r [Er [S [Wr Gr]]]]. exists (r :: rs). cbn [map_option]. rewrite Er. cbn [bind]. rewrite E. cbn [bind]. split; [reflexivity|]. split; [|split; [|intros Rg Hg; constructor; [apply Gr, Hg; left; reflexivity|apply G; intros j Hj; apply Hg; right; exact Hj]]].
    + constructor; [|exact F]. split; [exact S|]. intros x y. rewrite Wr. destruct o; cbn [turn]; [destruct (U y x)|destruct (U x y)]; lia.
    + intros x y. unfold zsum at 1. cbn [fold_right]. fold (zsum (fun r0 => winding_number (ring_points r0) x y) rs). rewrite Z0, Wr.
      destruct o; cbn [turn]; [change (zsum (RW h y x) (k :: l)) with (RW h y x k + zsum (RW h y x) l)|change (zsum (RW h x y) (k :: l)) with (RW h x y k + zsum (RW h x y) l)]; lia.
Qed.

(* the curves run along the boundary of the region *)
Definition tight (P : Z -> Z -> bool) (p : poly90) : Prop := gring P true true (p_outer p) /\ Forall (gring P true true) (p_holes p).
Lemma read_shell X h q o fr a : shell X h q [] a -> (fr = true -> hol h a = []) -> exists p, read_polygon h o (negb fr) a = Some p /\ formed p /\
  (fr = true -> p_holes p = []) /\ (forall x y, poly_winding p x y = turn o (fun u v => fv h u v a) x y) /\
  forall Rg, gr Rg h false a -> (forall k, In k (hol h a) -> gr Rg h true k) -> tight (turn o Rg) p.
Proof.
  intros [[N1 [N2 [R U]]] [_ [Hh Pos]]] Fr. destruct (read_fig X h o false a R) as [r [Er [S [Wr Gr]]]].
  destruct (read_holes X h q o (hol h a) Hh) as [rs [E [F [Z0 G]]]].
  destruct R as [t [ot [M _]]]. pose proof (mi_this _ _ _ _ M) as M1. unfold read_polygon. rewrite M1, Er. cbn [bind].
  assert (Et : t_holes t = hol h a) by (unfold hol; rewrite M1; reflexivity). rewrite Et.
  assert (K : exists p, (do inner <- (if negb fr then map_option (read_figure h o true) (hol h a) else Some []); Some (mk_poly90 r inner)) = Some p /\ p = mk_poly90 r rs /\ (fr = true -> rs = [])).
  { destruct fr; cbn [negb bind].
    - rewrite (Fr eq_refl) in E. cbn [map_option] in E. injection E as <-. eexists. split; [reflexivity|]. split; reflexivity.
    - rewrite E. cbn [bind]. eexists. split; [reflexivity|]. split; [reflexivity|discriminate]. }
  destruct K as [p [-> [-> Kf]]]. eexists. split; [reflexivity|].
  assert (Pw : forall x y, poly_winding (mk_poly90 r rs) x y = turn o (fun u v => fv h u v a) x y).
  { intros x y. unfold poly_winding. cbn [p_outer p_holes]. rewrite Wr, Z0. unfold fv, HS. destruct o; cbn [turn]; lia. }
  split; [|split; [exact Kf|split; [exact Pw|intros Rg G1 G2; split; [apply Gr; exact G1|apply G; exact G2]]]]. split; [split; [exact S|]|split; [exact F|]]; cbn [p_outer].
  - intros x y. rewrite Wr. destruct o; cbn [turn]; [destruct (U y x)|destruct (U x y)]; lia.
  - intros x y. rewrite Pw. assert (B : forall u v, fv h u v a = 0 \/ fv h u v a = 1); [|destruct o; cbn [turn]; apply B].
    intros u v. specialize (Pos u v). pose proof (cl_HS_pos X h q u v (hol h a) Hh) as K. unfold fv, HS in *. destruct (U u v); lia.
Qed.

Lemma read_shells X h q o fr : forall l, (forall a, In a l -> shell X h q [] a) -> (fr = true -> forall a, In a l -> hol h a = []) -> exists ps, map_option (read_polygon h o (negb fr)) l = Some ps /\
  Forall formed ps /\ (fr = true -> Forall (fun p => p_holes p = []) ps) /\ (forall x y, polys_winding ps x y = turn o (fun u v => zsum (fv h u v) l) x y) /\
  forall Rg, (forall a, In a l -> gr Rg h false a /\ forall k, In k (hol h a) -> gr Rg h true k) -> Forall (tight (turn o Rg)) ps.
Proof.
  induction l as [|a l IH]; intros H Fr.
  - exists []. split; [reflexivity|]. split; [constructor|]. split; [constructor|]. split; [intros x y; destruct o; reflexivity|intros; constructor].
  - destruct IH as [ps [E [F [G [Z0 Gt]]]]]; [intros j Hj; apply H; right; exact Hj|intros Ef j Hj; apply Fr; [exact Ef|right; exact Hj]|].
    destruct (read_shell X h q o fr a (H a (or_introl eq_refl)) (fun Ef => Fr Ef a (or_introl eq_refl))) as [p [Ep [Fp [Gp [Wp Tp]]]]].
    exists (p :: ps). cbn [map_option]. rewrite Ep. cbn [bind]. rewrite E. cbn [bind]. split; [reflexivity|]. split; [constructor; assumption|]. split; [intros Ef; constructor; [exact (Gp Ef)|exact (G Ef)]|].
    split; [|intros Rg Hg; constructor; [apply Tp; apply (Hg a (or_introl eq_refl))|apply Gt; intros j Hj; apply Hg; right; exact Hj]].
    intros x y. unfold polys_winding, zsum at 1. cbn [fold_right]. fold (polys_winding ps x y). change (fold_right (fun a0 s => poly_winding a0 x y + s) 0 ps) with (polys_winding ps x y). rewrite Z0, Wp.
    destruct o; cbn [turn]; reflexivity.
Qed.
