(* Vertex cycles: independence of the start vertex, of direction and position. *)
From Verif Require Import Base Units Scan90Spec Poly90Spec Poly90Model Poly90Proofs.
From Coq Require Import Sorting.Permutation.

Definition swap_edge (e : point * point) : point * point := (snd e, fst e).
Lemma cyc_rot p l : Permutation (cyc_edges (l ++ [p])) (cyc_edges (p :: l)).
Proof.
  destruct l as [|q l]; [reflexivity|].
  rewrite (cyc_pedges p (q :: l)). change ((q :: l) ++ [p]) with (q :: (l ++ [p])) at 1. rewrite cyc_pedges, pedges_app, last_app1.
  change (pedges ((p :: q :: l) ++ [p])) with ((p, q) :: pedges ((q :: l) ++ [p])).
  change (q :: l ++ [p]) with ((q :: l) ++ [p]). symmetry. apply Permutation_cons_append.
Qed.
Lemma cyc_rotate l m : Permutation (cyc_edges (l ++ m)) (cyc_edges (m ++ l)).
Proof.
  revert m. induction l as [|p l IH]; intros m; [rewrite app_nil_r; reflexivity|].
  cbn [app]. rewrite <- cyc_rot. rewrite <- app_assoc. rewrite IH. rewrite <- app_assoc. reflexivity.
Qed.
Lemma pedges_snoc L p q : pedges (L ++ [p; q]) = pedges (L ++ [p]) ++ [(p, q)].
Proof.
  induction L as [|a L IH]; [reflexivity|]. cbn [app]. destruct L as [|b L]; [reflexivity|].
  cbn [app] in IH |- *. change (pedges (a :: b :: L ++ [p; q])) with ((a, b) :: pedges (b :: L ++ [p; q])).
  rewrite IH. reflexivity.
Qed.
Lemma pedges_rev L : pedges (rev L) = rev (map swap_edge (pedges L)).
Proof.
  induction L as [|a L IH]; [reflexivity|]. destruct L as [|b L]; [reflexivity|].
  change (pedges (a :: b :: L)) with ((a, b) :: pedges (b :: L)). cbn [map rev]. rewrite <- IH.
  cbn [rev]. rewrite <- app_assoc. cbn [app]. rewrite pedges_snoc. reflexivity.
Qed.
Lemma cyc_rev l : Permutation (cyc_edges (rev l)) (map swap_edge (cyc_edges l)).
Proof.
  destruct l as [|p l]; [reflexivity|]. cbn [rev]. rewrite cyc_rot, cyc_pedges, cyc_pedges.
  assert (E : (p :: rev l) ++ [p] = rev ((p :: l) ++ [p])).
  { rewrite rev_app_distr. cbn [rev app]. reflexivity. }
  rewrite E, pedges_rev. symmetry. apply Permutation_rev.
Qed.
Lemma pedges_map g L : pedges (map g L) = map (fun e => (g (fst e), g (snd e))) (pedges L).
Proof.
  induction L as [|a L IH]; [reflexivity|]. destruct L as [|b L]; [reflexivity|].
  change (pedges (map g (a :: b :: L))) with ((g a, g b) :: pedges (map g (b :: L))). rewrite IH. reflexivity.
Qed.
Lemma cyc_map g l : cyc_edges (map g l) = map (fun e => (g (fst e), g (snd e))) (cyc_edges l).
Proof.
  destruct l as [|p l]; [reflexivity|]. cbn [map]. rewrite !cyc_pedges, <- pedges_map. cbn [map app].
  rewrite map_app. reflexivity.
Qed.
Lemma zsum_perm {A : Type} (f : A -> Z) l m : Permutation l m -> zsum f l = zsum f m.
Proof. intros P. unfold zsum. induction P; cbn [fold_right] in *; lia. Qed.
Lemma zsum_map {A B : Type} (f : B -> Z) (g : A -> B) l : zsum f (map g l) = zsum (fun a => f (g a)) l.
Proof. unfold zsum. induction l as [|a l IH]; cbn [map fold_right]; [reflexivity|]. rewrite IH. reflexivity. Qed.
Lemma zsum_ext {A : Type} (f g : A -> Z) l : (forall a, In a l -> f a = g a) -> zsum f l = zsum g l.
Proof.
  unfold zsum. induction l as [|a l IH]; intros H; [reflexivity|]. cbn [fold_right]. rewrite IH, (H a); [reflexivity|left; reflexivity|].
  intros b Hb. apply H. right. exact Hb.
Qed.
Lemma zsum_opp {A : Type} (f : A -> Z) l : zsum (fun a => - f a) l = - zsum f l.
Proof. unfold zsum. induction l as [|a l IH]; cbn [fold_right]; lia. Qed.
Lemma zsum_add {A : Type} (f g : A -> Z) l : zsum (fun a => f a + g a) l = zsum f l + zsum g l.
Proof. unfold zsum. induction l as [|a l IH]; cbn [fold_right]; lia. Qed.
Lemma zsum_scale {A : Type} k (f : A -> Z) l : zsum (fun a => k * f a) l = k * zsum f l.
Proof. unfold zsum. induction l as [|a l IH]; cbn [fold_right]; lia. Qed.
Lemma zsum_swap {A B : Type} (f : A -> B -> Z) l m :
  zsum (fun a => zsum (f a) m) l = zsum (fun b => zsum (fun a => f a b) l) m.
Proof.
  induction l as [|a l IH]; [|rewrite zsum_cons, IH, <- zsum_add; apply zsum_ext; intros b _; rewrite zsum_cons; reflexivity].
  unfold zsum at 1. cbn [fold_right]. induction m as [|b m IH]; [reflexivity|]. rewrite zsum_cons, <- IH. reflexivity.
Qed.
(* telescoping around a cycle *)
Lemma cyc_telescope (g : point -> Z) l : zsum (fun e => g (snd e) - g (fst e)) (cyc_edges l) = 0.
Proof.
  destruct l as [|p l]; [reflexivity|]. rewrite cyc_pedges.
  assert (H : forall l p, zsum (fun e => g (snd e) - g (fst e)) (pedges (p :: l)) = g (last l p) - g p).
  { clear. intros l. induction l as [|q l IH]; intros p; [unfold zsum; cbn [pedges fold_right last]; lia|].
    change (pedges (p :: q :: l)) with ((p, q) :: pedges (q :: l)). rewrite zsum_cons, IH. cbn [fst snd].
    assert (L : last (q :: l) p = last l q).
    { destruct l as [|c l]; [reflexivity|]. exact (last_dflt l c p q). }
    rewrite L. lia. }
  cbn [app]. rewrite H, last_app1. lia.
Qed.

(* ---------- winding number ---------- *)
Lemma crossing_swap x y e : crossing x y (swap_edge e) = - crossing x y e.
Proof.
  destruct e as [a b]. unfold crossing, swap_edge. cbn [fst snd].
  destruct (Z.eqb_spec (py a) (py b)) as [E|E], (Z.eqb_spec (py b) (py a)) as [E'|E']; try lia; cbn [andb]; [|reflexivity].
  rewrite E. destruct (py b <=? y); [|reflexivity].
  destruct (Z.leb_spec (px a) x), (Z.leb_spec (px b) x), (Z.ltb_spec x (px a)), (Z.ltb_spec x (px b)); cbn [andb]; lia.
Qed.
Lemma winding_rotate l m x y : winding_number (l ++ m) x y = winding_number (m ++ l) x y.
Proof. apply zsum_perm. apply cyc_rotate. Qed.
Lemma winding_rev l x y : winding_number (rev l) x y = - winding_number l x y.
Proof.
  unfold winding_number. rewrite (zsum_perm _ _ _ (cyc_rev l)), zsum_map, <- zsum_opp. apply zsum_ext.
  intros e _. apply crossing_swap.
Qed.
Lemma winding_shift dx dy l x y : winding_number (map (shift dx dy) l) (x + dx) (y + dy) = winding_number l x y.
Proof.
  unfold winding_number. rewrite cyc_map, zsum_map. apply zsum_ext. intros [a b] _. unfold crossing, shift. cbn [fst snd px py].
  replace (py a + dy =? py b + dy) with (py a =? py b) by lia.
  replace (py a + dy <=? y + dy) with (py a <=? y) by lia.
  replace (px a + dx <=? x + dx) with (px a <=? x) by lia.
  replace (px b + dx <=? x + dx) with (px b <=? x) by lia.
  replace (x + dx <? px b + dx) with (x <? px b) by lia.
  replace (x + dx <? px a + dx) with (x <? px a) by lia. reflexivity.
Qed.
Lemma shoelace_rotate l m : shoelace2 (l ++ m) = shoelace2 (m ++ l).
Proof. apply zsum_perm. apply cyc_rotate. Qed.
Lemma shoelace_rev l : shoelace2 (rev l) = - shoelace2 l.
Proof.
  unfold shoelace2. rewrite (zsum_perm _ _ _ (cyc_rev l)), zsum_map, <- zsum_opp. apply zsum_ext.
  intros e _. unfold swap_edge. cbn [fst snd]. lia.
Qed.
Lemma shoelace_shift dx dy l : shoelace2 (map (shift dx dy) l) = shoelace2 l.
Proof.
  unfold shoelace2. rewrite cyc_map, zsum_map.
  pose proof (cyc_telescope (fun p => dx * py p - dy * px p) l) as T.
  set (f := fun e : point * point => px (fst e) * py (snd e) - px (snd e) * py (fst e)) in *.
  set (g := fun e : point * point => dx * py (snd e) - dy * px (snd e) - (dx * py (fst e) - dy * px (fst e))) in *.
  assert (E : zsum f (cyc_edges l) = zsum f (cyc_edges l) + zsum g (cyc_edges l)) by lia.
  rewrite E, <- zsum_add. apply zsum_ext. intros [a b] _. unfold f, g, shift. cbn [fst snd px py]. lia.
Qed.

Lemma crossing_axis x y e : axis_edge e ->
  crossing x y e - crossing_left x y e = quad x y (fst e) - quad x y (snd e).
Proof.
  destruct e as [[a b] [c d]]. unfold axis_edge, crossing, crossing_left, quad. cbn [fst snd px py]. intros A.
  destruct (Z.eqb_spec b d), (Z.eqb_spec a c); subst; try lia;
  repeat match goal with |- context [?u <=? ?v] => destruct (Z.leb_spec u v) | |- context [?u <? ?v] => destruct (Z.ltb_spec u v) end;
  cbn [andb b2z]; lia.
Qed.
Lemma winding_left l x y : Forall axis_edge (cyc_edges l) ->
  winding_number l x y = zsum (crossing_left x y) (cyc_edges l).
Proof.
  intros A. pose proof (cyc_telescope (fun p => - quad x y p) l) as T.
  assert (E : zsum (fun e => - quad x y (snd e) - - quad x y (fst e)) (cyc_edges l) =
              winding_number l x y - zsum (crossing_left x y) (cyc_edges l)).
  { unfold winding_number. rewrite <- Z.add_opp_r, <- zsum_opp, <- zsum_add. apply zsum_ext. intros e He.
    rewrite Forall_forall in A. pose proof (crossing_axis x y e (A e He)). lia. }
  lia.
Qed.

(* ---------- area = number of cells, weighted by the winding number ---------- *)
Lemma zrange_S a n : zrange a (S n) = zrange a n ++ [a + Z.of_nat n].
Proof. unfold zrange. rewrite seq_S, map_app. reflexivity. Qed.
Lemma zsum_step a n c : a <= c <= a + Z.of_nat n ->
  zsum (fun i => b2z (c <=? i)) (zrange a n) = a + Z.of_nat n - c.
Proof.
  induction n as [|n IH]; intros H; [unfold zsum, zrange; cbn [seq map fold_right]; lia|].
  rewrite zrange_S, zsum_app. unfold zsum at 2. cbn [fold_right].
  destruct (Z.eq_dec c (a + Z.of_nat (S n))) as [E|E].
  - assert (G : zsum (fun i => b2z (c <=? i)) (zrange a n) = 0).
    { rewrite (zsum_ext _ (fun _ => 0)); [unfold zsum; clear; induction (zrange a n); cbn [fold_right]; lia|].
      intros i Hi. unfold zrange in Hi. apply in_map_iff in Hi as [k [<- Hk]]. apply in_seq in Hk.
      destruct (Z.leb_spec c (a + Z.of_nat k)); cbn [b2z]; lia. }
    rewrite G. destruct (Z.leb_spec c (a + Z.of_nat n)); cbn [b2z]; lia.
  - rewrite IH by lia. destruct (Z.leb_spec c (a + Z.of_nat n)); cbn [b2z]; lia.
Qed.
Lemma box_quad x n y m p : inside_box x n y m p ->
  box_sum x n y m (fun i j => quad i j p) = (x + Z.of_nat n - px p) * (y + Z.of_nat m - py p).
Proof.
  intros [H1 H2]. unfold box_sum, quad.
  rewrite (zsum_ext _ (fun i => (y + Z.of_nat m - py p) * b2z (px p <=? i))).
  - rewrite zsum_scale, zsum_step by exact H1. ring.
  - intros i _. destruct (px p <=? i); cbn [andb b2z].
    + rewrite Z.mul_1_r. apply zsum_step. exact H2.
    + rewrite Z.mul_0_r. clear. unfold zsum. induction (zrange y m); cbn [fold_right]; lia.
Qed.
Lemma box_sum_add x n y m f g : box_sum x n y m (fun i j => f i j + g i j) = box_sum x n y m f + box_sum x n y m g.
Proof. unfold box_sum. rewrite <- zsum_add. apply zsum_ext. intros i _. apply zsum_add. Qed.
Lemma box_sum_opp x n y m f : box_sum x n y m (fun i j => - f i j) = - box_sum x n y m f.
Proof. unfold box_sum. rewrite <- zsum_opp. apply zsum_ext. intros i _. apply zsum_opp. Qed.
Lemma box_sum_ext x n y m f g : (forall i j, f i j = g i j) -> box_sum x n y m f = box_sum x n y m g.
Proof. intros E. unfold box_sum. apply zsum_ext. intros i _. apply zsum_ext. intros j _. apply E. Qed.
Lemma box_sum_zsum {A : Type} x n y m (f : A -> Z -> Z -> Z) l :
  box_sum x n y m (fun i j => zsum (fun a => f a i j) l) = zsum (fun a => box_sum x n y m (f a)) l.
Proof.
  unfold box_sum. rewrite (zsum_ext _ (fun i => zsum (fun a => zsum (fun j => f a i j) (zrange y m)) l)).
  - apply (zsum_swap (fun i a => zsum (fun j => f a i j) (zrange y m))).
  - intros i _. apply (zsum_swap (fun j a => f a i j)).
Qed.
Lemma box_crossing x n y m e : axis_edge e -> inside_box x n y m (fst e) -> inside_box x n y m (snd e) ->
  box_sum x n y m (fun i j => crossing i j e) = (px (snd e) - px (fst e)) * (y + Z.of_nat m - py (fst e)).
Proof.
  intros A H1 H2. destruct e as [[a b] [c d]]. cbn [fst snd] in *.
  destruct A as [A|A]; cbn [fst snd px py] in A; subst.
  - rewrite (box_sum_ext _ _ _ _ _ (fun i j => quad i j (mk_pt c b) + - quad i j (mk_pt c b))).
    + rewrite box_sum_add, box_sum_opp. cbn [px py]. lia.
    + intros i j. rewrite crossing_v. lia.
  - rewrite (box_sum_ext _ _ _ _ _ (fun i j => quad i j (mk_pt a d) + - quad i j (mk_pt c d))).
    + rewrite box_sum_add, box_sum_opp, !box_quad by assumption. cbn [px py]. ring.
    + intros i j. rewrite crossing_h. lia.
Qed.
Lemma cyc_in l e : In e (cyc_edges l) -> In (fst e) l /\ In (snd e) l.
Proof.
  destruct l as [|p l]; [intros []|]. destruct e as [a b]. cbn [cyc_edges fst snd]. intros H. split.
  - apply in_combine_l in H. exact H.
  - apply in_combine_r in H. apply in_app_or in H as [H|[H|[]]]; [right; exact H|left; exact H].
Qed.
Lemma winding_area x n y m l : Forall axis_edge (cyc_edges l) -> Forall (inside_box x n y m) l ->
  2 * box_sum x n y m (winding_number l) = shoelace2 l.
Proof.
  intros A I. destruct l as [|p0 l0] eqn:El.
  { unfold box_sum, winding_number, shoelace2. cbn [cyc_edges]. unfold zsum at 3. cbn [fold_right]. unfold zsum at 2. cbn [fold_right].
    rewrite (zsum_ext _ (fun _ => 0 * 0)); [rewrite zsum_scale; reflexivity|]. intros i _. clear. unfold zsum. induction (zrange y m); cbn [fold_right]; lia. }
  rewrite <- El in *.
  assert (ST : zsum (trap (y + Z.of_nat m)) (cyc_edges l) = - shoelace2 l) by (rewrite El; apply shoelace_trap).
  clear El. rewrite Forall_forall in A, I.
  unfold winding_number. rewrite box_sum_zsum.
  assert (E : zsum (trap (y + Z.of_nat m)) (cyc_edges l) =
    - 2 * zsum (fun e => box_sum x n y m (fun i j => crossing i j e)) (cyc_edges l)).
  { rewrite <- zsum_scale. apply zsum_ext. intros e He. destruct (cyc_in _ _ He) as [F G].
    rewrite box_crossing; [|apply A; exact He|apply I; exact F|apply I; exact G].
    destruct (A e He) as [Q|Q]; unfold trap; rewrite Q; ring. }
  lia.
Qed.
(* no winding outside a bounding box *)
Lemma winding_outside x n y m l i j : Forall axis_edge (cyc_edges l) -> Forall (inside_box x n y m) l ->
  ~ (x <= i < x + Z.of_nat n /\ y <= j < y + Z.of_nat m) -> winding_number l i j = 0.
Proof.
  intros A I H. rewrite Forall_forall in I.
  assert (Z0 : forall f, (forall e, In e (cyc_edges l) -> f e = 0) -> zsum f (cyc_edges l) = 0).
  { intros f Hf. rewrite (zsum_ext f (fun _ => 0) _ Hf). unfold zsum. clear. induction (cyc_edges l); cbn [fold_right]; lia. }
  destruct (Z_lt_ge_dec j y) as [J|J]; [|destruct (Z_lt_ge_dec i x) as [J1|J1]; [|destruct (Z_lt_ge_dec i (x + Z.of_nat n)) as [J2|J2]]].
  - apply Z0. intros [a b] He. destruct (cyc_in _ _ He) as [F G]. cbn [fst snd] in F, G. apply I in F, G.
    unfold inside_box in F, G. unfold crossing. destruct (Z.leb_spec (py a) j); [lia|]. rewrite andb_false_r. reflexivity.
  - apply Z0. intros [a b] He. destruct (cyc_in _ _ He) as [F G]. cbn [fst snd] in F, G. apply I in F, G.
    unfold inside_box in F, G. unfold crossing. destruct (_ && _)%bool; [|reflexivity].
    destruct (Z.leb_spec (px a) i), (Z.leb_spec (px b) i); cbn [andb]; lia.
  - (* above *)
    rewrite winding_left by exact A.
    assert (J3 : y + Z.of_nat m <= j) by lia.
    apply Z0. intros [a b] He. destruct (cyc_in _ _ He) as [F G]. cbn [fst snd] in F, G. apply I in F, G.
    unfold inside_box in F, G. unfold crossing_left. destruct (_ && _)%bool; [|reflexivity].
    destruct (Z.ltb_spec j (py a)), (Z.ltb_spec j (py b)); rewrite ?andb_false_r; lia.
  - apply Z0. intros [a b] He. destruct (cyc_in _ _ He) as [F G]. cbn [fst snd] in F, G. apply I in F, G.
    unfold inside_box in F, G. unfold crossing. destruct (_ && _)%bool; [|reflexivity].
    destruct (Z.ltb_spec i (px a)), (Z.ltb_spec i (px b)); rewrite ?andb_false_r; lia.
Qed.
