(* The horizontal edges of a ring with the vertical edges before and after. *)
From Verif Require Import Base Units Scan90Spec Poly90Spec Poly90Model Poly90Proofs PolyCycle Set90Model PolyFormGaps PolyFormModel PolyFormLemmas PolyFormGood.
From Coq Require Import Arith.

(* the edge at y = wb from x = wa to x = wc; the vertical edge before it comes
   from y = wz, the one after it goes to y = wd *)
Record win : Type := mk_win { wz : Z; wa : Z; wb : Z; wc : Z; wd : Z }.
Fixpoint wins_go (z : Z) (q : Z * Z) (rest : list (Z * Z)) (f : Z * Z) : list win :=
  match rest with
  | [] => [mk_win z (fst q) (snd q) (fst f) (snd f)]
  | r :: rest' => mk_win z (fst q) (snd q) (fst r) (snd r) :: wins_go (snd q) r rest' f
  end.
Definition wins (cs : list (Z * Z)) : list win :=
  match cs with [] => [] | q :: rest => wins_go (snd (last rest q)) q rest q end.

Definition hor (w : win) : point * point := (mk_pt (wa w) (wb w), mk_pt (wc w) (wb w)).
Definition ver (w : win) : point * point := (mk_pt (wc w) (wb w), mk_pt (wc w) (wd w)).

Lemma last_cons {A : Type} (rest : list A) : forall r q, last (r :: rest) q = last rest r.
Proof. induction rest as [|b rest IH]; intros r q; [reflexivity|]. change (last (r :: b :: rest) q) with (last (b :: rest) q). rewrite !IH. reflexivity. Qed.

(* ---------- points and edges ---------- *)
Lemma wins_go_points rest : forall z q f, rp (fst f) (q :: rest) = flat_map (fun w => [mk_pt (wa w) (wb w); mk_pt (wc w) (wb w)]) (wins_go z q rest f).
Proof.
  induction rest as [|[x' y'] rest IH]; intros z [x y] f; [reflexivity|]. cbn [wins_go flat_map app wa wb wc fst snd]. rewrite <- (IH y (x', y') f). reflexivity.
Qed.
Lemma wins_go_edges rest : forall z q f, pedges (rp (fst f) (q :: rest) ++ [mk_pt (fst f) (snd f)]) = flat_map (fun w => [hor w; ver w]) (wins_go z q rest f).
Proof.
  induction rest as [|[x' y'] rest IH]; intros z [x y] f; [reflexivity|]. cbn [wins_go flat_map app snd]. rewrite <- (IH y (x', y') f). reflexivity.
Qed.
Lemma wins_points cs : ring_points (flat cs) = flat_map (fun w => [mk_pt (wa w) (wb w); mk_pt (wc w) (wb w)]) (wins cs).
Proof.
  destruct cs as [|[a b] rest]; [reflexivity|]. transitivity (rp a ((a, b) :: rest)); [rewrite <- ring_points_flat; reflexivity|]. exact (wins_go_points rest _ (a, b) (a, b)).
Qed.
Lemma wins_edges cs : cyc_edges (ring_points (flat cs)) = flat_map (fun w => [hor w; ver w]) (wins cs).
Proof.
  destruct cs as [|[a b] rest]; [reflexivity|]. transitivity (cyc_edges (rp a ((a, b) :: rest))); [rewrite <- ring_points_flat; reflexivity|].
  cbn [wins]. rewrite <- (wins_go_edges rest _ (a, b) (a, b)). cbn [rp fst snd]. rewrite cyc_pedges. reflexivity.
Qed.
Lemma wins_winding cs x y : winding_number (ring_points (flat cs)) x y = zsum (fun w => b2z (wb w <=? y) * (b2z (wa w <=? x) - b2z (wc w <=? x))) (wins cs).
Proof.
  unfold winding_number. rewrite wins_edges. induction (wins cs) as [|w l IH]; [reflexivity|]. cbn [flat_map app]. rewrite !zsum_cons, IH. unfold hor, ver.
  rewrite crossing_h, crossing_v. unfold quad. cbn [px py]. destruct (wb w <=? y), (wa w <=? x), (wc w <=? x); cbn [andb b2z]; lia.
Qed.

(* ---------- sums over the vertical edges ---------- *)
Lemma wins_go_cycle (F : Z -> Z -> Z -> Z) rest : forall z q f,
  zsum (fun w => F (wb w) (wc w) (wd w)) (wins_go z q rest f) + F z (fst q) (snd q) = zsum (fun w => F (wz w) (wa w) (wb w)) (wins_go z q rest f) + F (snd (last rest q)) (fst f) (snd f).
Proof.
  induction rest as [|r rest IH]; intros z q f.
  - unfold zsum. cbn. lia.
  - cbn [wins_go]. rewrite !zsum_cons. specialize (IH (snd q) r f). cbn [wz wa wb wc wd] in *. rewrite last_cons. lia.
Qed.
Lemma wins_cycle (F : Z -> Z -> Z -> Z) cs : zsum (fun w => F (wz w) (wa w) (wb w)) (wins cs) = zsum (fun w => F (wb w) (wc w) (wd w)) (wins cs).
Proof. destruct cs as [|q rest]; [reflexivity|]. cbn [wins]. pose proof (wins_go_cycle F rest (snd (last rest q)) q q). lia. Qed.

(* ---------- moving every edge ---------- *)
Definition moved (gx gy : Z -> Z -> Z -> Z) (cs : list (Z * Z)) : list (Z * Z) := map (fun w => (gx (wz w) (wa w) (wb w), gy (wa w) (wb w) (wc w))) (wins cs).
Definition mwin (gx gy : Z -> Z -> Z -> Z) (w : win) : Z * Z * Z := (gx (wz w) (wa w) (wb w), gy (wa w) (wb w) (wc w), gx (wb w) (wc w) (wd w)).
Lemma moved_points_go gx gy rest : forall z q f,
  rp (gx (snd (last rest q)) (fst f) (snd f)) (map (fun w => (gx (wz w) (wa w) (wb w), gy (wa w) (wb w) (wc w))) (wins_go z q rest f)) =
  flat_map (fun w => [mk_pt (gx (wz w) (wa w) (wb w)) (gy (wa w) (wb w) (wc w)); mk_pt (gx (wb w) (wc w) (wd w)) (gy (wa w) (wb w) (wc w))]) (wins_go z q rest f).
Proof.
  induction rest as [|r rest IH]; intros z q f; [reflexivity|].
  rewrite last_cons. cbn [wins_go map flat_map app rp]. rewrite <- (IH (snd q) r f). destruct rest as [|r2 rest]; reflexivity.
Qed.
Lemma moved_points gx gy cs : ring_points (flat (moved gx gy cs)) =
  flat_map (fun w => [mk_pt (gx (wz w) (wa w) (wb w)) (gy (wa w) (wb w) (wc w)); mk_pt (gx (wb w) (wc w) (wd w)) (gy (wa w) (wb w) (wc w))]) (wins cs).
Proof.
  destruct cs as [|q rest]; [reflexivity|]. unfold moved. cbn [wins]. rewrite <- moved_points_go.
  set (m := map _ _). assert (E : exists y t, m = (gx (snd (last rest q)) (fst q) (snd q), y) :: t) by (unfold m; destruct rest as [|r rest]; cbn [wins_go map wz wa wb wc]; eauto).
  destruct E as [y [t E]]. rewrite E. rewrite <- ring_points_flat. reflexivity.
Qed.
Lemma moved_wins gx gy cs (G : Z -> Z -> Z -> Z) : zsum (fun w => G (wa w) (wb w) (wc w)) (wins (moved gx gy cs)) = zsum (fun w => G (gx (wz w) (wa w) (wb w)) (gy (wa w) (wb w) (wc w)) (gx (wb w) (wc w) (wd w))) (wins cs).
Proof.
  assert (K : map (fun w => (mk_pt (wa w) (wb w), mk_pt (wc w) (wb w))) (wins (moved gx gy cs)) = map (fun w => (mk_pt (gx (wz w) (wa w) (wb w)) (gy (wa w) (wb w) (wc w)), mk_pt (gx (wb w) (wc w) (wd w)) (gy (wa w) (wb w) (wc w)))) (wins cs)).
  { pose proof (moved_points gx gy cs) as Mp. rewrite wins_points in Mp. revert Mp. generalize (wins (moved gx gy cs)). generalize (wins cs).
    induction l as [|w l IH]; intros [|w' l'] E; cbn [flat_map app map] in *; try discriminate; [reflexivity|]. injection E as E1 E2 E3 E4 E5. rewrite (IH l' E5), E1, E3. f_equal. congruence. }
  transitivity (zsum (fun pq : point * point => G (px (fst pq)) (py (fst pq)) (px (snd pq))) (map (fun w => (mk_pt (wa w) (wb w), mk_pt (wc w) (wb w))) (wins (moved gx gy cs)))); [rewrite PolyCycle.zsum_map; reflexivity|].
  rewrite K, PolyCycle.zsum_map. reflexivity.
Qed.
Lemma moved_winding gx gy cs x y : winding_number (ring_points (flat (moved gx gy cs))) x y =
  zsum (fun w => b2z (gy (wa w) (wb w) (wc w) <=? y) * (b2z (gx (wz w) (wa w) (wb w) <=? x) - b2z (gx (wb w) (wc w) (wd w) <=? x))) (wins cs).
Proof. rewrite wins_winding. exact (moved_wins gx gy cs (fun a b c => b2z (b <=? y) * (b2z (a <=? x) - b2z (c <=? x)))). Qed.

(* ---------- the region on one side ---------- *)
Record wok (P : Z -> Z -> bool) (w : win) : Prop := mk_wok {
  k_h : gedge P true false (wa w) (wb w) (wc w);
  k_v : gedge P true true (wb w) (wc w) (wd w);
  k_z : gedge P true true (wz w) (wa w) (wb w);
  k_c1 : gcorner P true (wz w) (wa w) (wb w) (wc w);
  k_c2 : gcorner P false (wa w) (wb w) (wc w) (wd w) }.
Lemma wins_go_ok P rest : forall z q f, GE P true false (z :: flat (q :: rest) ++ [fst f; snd f]) -> GC P false (z :: flat (q :: rest) ++ [fst f; snd f]) -> Forall (wok P) (wins_go z q rest f).
Proof.
  induction rest as [|r rest IH]; intros z q f E C.
  - cbn [flat flat_map app] in *. rewrite !GE_cons in E. rewrite !GC_cons in C. cbn [negb] in *. destruct E as [E1 [E2 [E3 _]]]. destruct C as [C1 [C2 _]]. constructor; [|constructor]. constructor; assumption.
  - change (flat (q :: r :: rest)) with (fst q :: snd q :: flat (r :: rest)) in *. cbn [app] in *. change (flat (r :: rest)) with (fst r :: snd r :: flat rest) in E, C. cbn [app] in E, C.
    rewrite !GE_cons in E. rewrite !GC_cons in C. cbn [negb] in *. destruct E as [E1 [E2 [E3 E4]]]. destruct C as [C1 [C2 C3]].
    cbn [wins_go]. constructor; [constructor; assumption|]. apply IH; [|exact C3]. change (flat (r :: rest)) with (fst r :: snd r :: flat rest). cbn [app]. split; assumption.
Qed.
Lemma flat_length cs : length (flat cs) = (2 * length cs)%nat.
Proof. induction cs as [|c cs IH]; [reflexivity|]. change (flat (c :: cs)) with (fst c :: snd c :: flat cs). cbn [length]. lia. Qed.
Lemma flat_last rest : forall q, exists m, flat (q :: rest) = m ++ [snd (last rest q)].
Proof.
  induction rest as [|r rest IH]; intros q; [exists [fst q]; reflexivity|]. destruct (IH r) as [m E]. exists (fst q :: snd q :: m). change (flat (q :: r :: rest)) with (fst q :: snd q :: flat (r :: rest)). rewrite E.
  rewrite last_cons. reflexivity.
Qed.
Lemma wins_ok P cs : (2 <= length cs)%nat -> gring P true true (flat cs) -> Forall (wok P) (wins cs).
Proof.
  intros L G. destruct cs as [|q [|r rest]]; [cbn in L; lia|cbn in L; lia|]. destruct (flat_last (r :: rest) q) as [m E]. set (z := snd (last (r :: rest) q)) in *.
  assert (Ev : Nat.Even (length (m ++ [z]))) by (rewrite <- E, flat_length; exists (length (q :: r :: rest)); reflexivity).
  assert (L4 : (4 <= length (m ++ [z]))%nat) by (rewrite <- E, flat_length; cbn [length]; lia).
  pose proof (gring_rots P true m true [z] Ev L4) as G2. rewrite <- E in G2. specialize (G2 G).
  assert (Vm : vat true m = false).
  { rewrite app_length in Ev. cbn [length] in Ev. rewrite Nat.add_1_r in Ev. unfold vat. apply Nat.even_spec in Ev. rewrite Nat.even_succ in Ev. rewrite Ev. reflexivity. }
  rewrite Vm in G2. change (flat (q :: r :: rest)) with (fst q :: snd q :: fst r :: snd r :: flat rest) in *. cbn [gring app] in G. destruct G as [G1 G3].
  destruct m as [|m0 [|m1 [|m2 m]]]; cbn [app length] in *; try lia; inversion E; subst. cbn [gring app] in G2. destruct G2 as [H1 H2].
  rewrite GE_cons in H1. rewrite GC_cons in H2. cbn [negb] in *. destruct H1 as [H1 _]. destruct H2 as [H2 _].
  cbn [wins]. fold z. apply wins_go_ok.
  - change (flat (q :: r :: rest)) with (fst q :: snd q :: fst r :: snd r :: flat rest). cbn [app]. rewrite GE_cons. cbn [negb]. split; [exact H1|exact G1].
  - change (flat (q :: r :: rest)) with (fst q :: snd q :: fst r :: snd r :: flat rest). cbn [app]. rewrite GC_cons. cbn [negb]. split; [exact H2|]. 
    replace (fst q :: snd q :: fst r :: snd r :: flat rest ++ [fst q; snd q; fst r]) with ((fst q :: snd q :: fst r :: snd r :: flat rest ++ [fst q; snd q]) ++ [fst r]) in G3 by (cbn [app]; rewrite <- app_assoc; reflexivity).
    exact (GC_pre P _ _ _ G3).
Qed.
