(* The Euler characteristic of a set of cells in a box, from local counts. It
   is at least one if the set is not empty and every other cell of the box can
   be reached from outside. *)
From Verif Require Import Base Units Scan90Spec Poly90Spec PolyCycle.
From Coq Require Import Arith.

(* counts at a cell s with its western, southern and south-western neighbours;
   k: cells that meet in a point count as connected *)
Definition rho (k s sw ss ssw : bool) : Z :=
  if k then b2z (s || ss) * (1 - b2z (sw || ssw)) - b2z ss * (1 - b2z ssw)
  else b2z s - b2z (s && sw) - b2z (s && ss) + b2z (s && sw && ss && ssw).
Definition rhoc (k : bool) (S : Z -> Z -> bool) (x y : Z) : Z := rho k (S x y) (S (x - 1) y) (S x (y - 1)) (S (x - 1) (y - 1)).

(* ---------- sums over a box ---------- *)
Definition pt_is (u v x y : Z) : bool := (x =? u) && (y =? v).
Lemma pt_is_eq u v x y : pt_is u v x y = true -> x = u /\ y = v.
Proof. unfold pt_is. lia. Qed.
Lemma zsum_zero {A : Type} (l : list A) f : (forall a, In a l -> f a = 0) -> zsum f l = 0.
Proof. induction l as [|a l IH]; intros H; [reflexivity|]. unfold zsum. cbn [fold_right]. fold (zsum f l). rewrite IH by (intros b Hb; apply H; right; exact Hb). rewrite H by (left; reflexivity). reflexivity. Qed.
Lemma zsum_single a n f u : a <= u < a + Z.of_nat n -> (forall x, x <> u -> f x = 0) -> zsum f (zrange a n) = f u.
Proof.
  induction n as [|n IH]; intros H F; [lia|]. rewrite zrange_S. assert (E : forall l1 l2, zsum f (l1 ++ l2) = zsum f l1 + zsum f l2) by (intros l1 l2; unfold zsum; induction l1 as [|b l1 IH1]; cbn [app fold_right]; [lia|rewrite IH1; lia]).
  rewrite E. unfold zsum at 2. cbn [fold_right]. destruct (Z.eq_dec u (a + Z.of_nat n)) as [-> |N].
  - rewrite zsum_zero; [lia|]. intros x Hx. apply F. unfold zrange in Hx. rewrite in_map_iff in Hx. destruct Hx as [j [<- Hj]]. apply in_seq in Hj. lia.
  - rewrite IH by (try exact F; lia). rewrite (F (a + Z.of_nat n)) by congruence. lia.
Qed.
Lemma box_sum_single x n y m f u v : x <= u < x + Z.of_nat n -> y <= v < y + Z.of_nat m -> (forall i j, pt_is u v i j = false -> f i j = 0) -> box_sum x n y m f = f u v.
Proof.
  intros Hu Hv F. unfold box_sum. rewrite (zsum_single x n _ u Hu).
  - apply (zsum_single y m _ v Hv). intros j Nj. apply F. unfold pt_is. lia.
  - intros i Ni. apply zsum_zero. intros j _. apply F. unfold pt_is. lia.
Qed.
Lemma box_sum_local x n y m f g u v : x <= u -> u + 1 < x + Z.of_nat n -> y <= v -> v + 1 < y + Z.of_nat m ->
  (forall i j, pt_is u v i j = false -> pt_is (u + 1) v i j = false -> pt_is u (v + 1) i j = false -> pt_is (u + 1) (v + 1) i j = false -> f i j = g i j) ->
  box_sum x n y m f - box_sum x n y m g = (f u v - g u v) + (f (u + 1) v - g (u + 1) v) + (f u (v + 1) - g u (v + 1)) + (f (u + 1) (v + 1) - g (u + 1) (v + 1)).
Proof.
  intros H1 H2 H3 H4 E. set (d := fun a b i j => if pt_is a b i j then f a b - g a b else 0).
  assert (Sg : forall a b, x <= a < x + Z.of_nat n -> y <= b < y + Z.of_nat m -> box_sum x n y m (d a b) = f a b - g a b).
  { intros a b Ha Hb. rewrite (box_sum_single x n y m (d a b) a b Ha Hb); unfold d; [|intros i j K; rewrite K; reflexivity]. replace (pt_is a b a b) with true by (unfold pt_is; lia). reflexivity. }
  rewrite <- (Sg u v), <- (Sg (u + 1) v), <- (Sg u (v + 1)), <- (Sg (u + 1) (v + 1)) by lia. rewrite <- !box_sum_add.
  assert (K : box_sum x n y m f = box_sum x n y m (fun i j => g i j + (d u v i j + d (u + 1) v i j + d u (v + 1) i j + d (u + 1) (v + 1) i j))).
  { apply box_sum_ext. intros i j. specialize (E i j). unfold d. destruct (pt_is u v i j) eqn:E1; [|destruct (pt_is (u + 1) v i j) eqn:E2; [|destruct (pt_is u (v + 1) i j) eqn:E3; [|destruct (pt_is (u + 1) (v + 1) i j) eqn:E4]]].
    - unfold pt_is in *. assert (i = u) by lia. assert (j = v) by lia. subst. replace (u =? u + 1) with false by lia. replace (v =? v + 1) with false by lia. cbn [andb]. rewrite andb_false_r. lia.
    - unfold pt_is in *. assert (i = u + 1) by lia. assert (j = v) by lia. subst. replace (u + 1 =? u) with false by lia. replace (v =? v + 1) with false by lia. cbn [andb]. rewrite andb_false_r. lia.
    - unfold pt_is in *. assert (i = u) by lia. assert (j = v + 1) by lia. subst. replace (u =? u + 1) with false by lia. cbn [andb]. lia.
    - unfold pt_is in *. assert (i = u + 1) by lia. assert (j = v + 1) by lia. subst. lia.
    - rewrite E by reflexivity. lia. }
  rewrite K, box_sum_add. lia.
Qed.

(* ---------- neighbours ---------- *)
Section Ring8.
Variable A : Type.
Variables lN lNE lE lSE lS lSW lW lNW : A.
Variables (bN bNE bE bSE bS bSW bW bNW : bool).
(* one label for every arc of neighbours *)
Definition reps (k : bool) : list A :=
  if k then
    (if bE then [] else if bNE then [lNE] else if bN then [lN] else []) ++ (if bS then [] else if bSE then [lSE] else if bE then [lE] else []) ++
    (if bW then [] else if bSW then [lSW] else if bS then [lS] else []) ++ (if bN then [] else if bNW then [lNW] else if bW then [lW] else [])
  else
    (if bN && negb (bNE && bE) then [lN] else []) ++ (if bE && negb (bSE && bS) then [lE] else []) ++
    (if bS && negb (bSW && bW) then [lS] else []) ++ (if bW && negb (bNW && bN) then [lW] else []).
Lemma reps_length (k : bool) : (if k then bN && bE && bS && bW else bN && bNE && bE && bSE && bS && bSW && bW && bNW) = false ->
  1 - Z.of_nat (length (reps k)) =
  (rho k true bW bS bSW - rho k false bW bS bSW) + (rho k bE true bSE bS - rho k bE false bSE bS) +
  (rho k bN bNW true bW - rho k bN bNW false bW) + (rho k bNE bN bE true - rho k bNE bN bE false).
Proof. unfold reps. destruct k, bN, bE, bS, bW, bNE, bSE, bSW, bNW; cbn; intros H; (discriminate H || reflexivity). Qed.
Lemma reps_cover4 : bN && bNE && bE && bSE && bS && bSW && bW && bNW = false ->
  (bN = true -> bNE = true -> lN = lNE) -> (bNE = true -> bE = true -> lNE = lE) -> (bE = true -> bSE = true -> lE = lSE) -> (bSE = true -> bS = true -> lSE = lS) ->
  (bS = true -> bSW = true -> lS = lSW) -> (bSW = true -> bW = true -> lSW = lW) -> (bW = true -> bNW = true -> lW = lNW) -> (bNW = true -> bN = true -> lNW = lN) ->
  (bN = true -> In lN (reps false)) /\ (bE = true -> In lE (reps false)) /\ (bS = true -> In lS (reps false)) /\ (bW = true -> In lW (reps false)).
Proof.
  intros H E1 E2 E3 E4 E5 E6 E7 E8.
  assert (L1 : bN = true -> bNE = true -> bE = true -> lN = lE) by (intros; rewrite E1, E2 by assumption; reflexivity).
  assert (L2 : bE = true -> bSE = true -> bS = true -> lE = lS) by (intros; rewrite E3, E4 by assumption; reflexivity).
  assert (L3 : bS = true -> bSW = true -> bW = true -> lS = lW) by (intros; rewrite E5, E6 by assumption; reflexivity).
  assert (L4 : bW = true -> bNW = true -> bN = true -> lW = lN) by (intros; rewrite E7, E8 by assumption; reflexivity).
  clear E1 E2 E3 E4 E5 E6 E7 E8. unfold reps.
  destruct bN, bE, bS, bW, bNE, bSE, bSW, bNW; cbn in *; try discriminate H; repeat match goal with Q : true = true -> _ |- _ => specialize (Q eq_refl) | Q : false = true -> _ |- _ => clear Q end; 
    repeat split; intros Q; try discriminate Q; clear Q; intuition congruence.
Qed.
Lemma reps_cover8 : bN && bE && bS && bW = false ->
  (bN = true -> bNE = true -> lN = lNE) -> (bNE = true -> bE = true -> lNE = lE) -> (bE = true -> bSE = true -> lE = lSE) -> (bSE = true -> bS = true -> lSE = lS) ->
  (bS = true -> bSW = true -> lS = lSW) -> (bSW = true -> bW = true -> lSW = lW) -> (bW = true -> bNW = true -> lW = lNW) -> (bNW = true -> bN = true -> lNW = lN) ->
  (bN = true -> bE = true -> lN = lE) -> (bE = true -> bS = true -> lE = lS) -> (bS = true -> bW = true -> lS = lW) -> (bW = true -> bN = true -> lW = lN) ->
  ((bN = true -> In lN (reps true)) /\ (bE = true -> In lE (reps true)) /\ (bS = true -> In lS (reps true)) /\ (bW = true -> In lW (reps true))) /\
  ((bNE = true -> In lNE (reps true)) /\ (bSE = true -> In lSE (reps true)) /\ (bSW = true -> In lSW (reps true)) /\ (bNW = true -> In lNW (reps true))).
Proof.
  intros H. unfold reps.
  destruct bN, bE, bS, bW, bNE, bSE, bSW, bNW; cbn in *; try discriminate H; intros; repeat match goal with Q : true = true -> _ |- _ => specialize (Q eq_refl) | Q : false = true -> _ |- _ => clear Q end; 
    repeat split; intros Q; try discriminate Q; clear Q; intuition congruence.
Qed.
End Ring8.

Section Box.
Variables (k : bool) (x0 : Z) (n : nat) (y0 : Z) (m : nat).
Hypothesis Hn : (1 <= n)%nat.
Hypothesis Hm : (1 <= m)%nat.
Definition inb (x y : Z) : bool := (x0 <=? x) && (x <? x0 + Z.of_nat n) && (y0 <=? y) && (y <? y0 + Z.of_nat m).
Definition inside (S : Z -> Z -> bool) : Prop := forall x y, S x y = true -> inb x y = true.
Definition chi (S : Z -> Z -> bool) : Z := box_sum x0 n y0 m (rhoc k S).
(* one more row and column *)
Definition chi' (S : Z -> Z -> bool) : Z := box_sum x0 (n + 1) y0 (m + 1) (rhoc k S).

Lemma zsum_app2 {A : Type} (f : A -> Z) l1 l2 : zsum f (l1 ++ l2) = zsum f l1 + zsum f l2.
Proof. unfold zsum. induction l1 as [|b l1 IH1]; cbn [app fold_right]; [lia|rewrite IH1; lia]. Qed.
Lemma inside_out S x y : inside S -> inb x y = false -> S x y = false.
Proof. intros I H. destruct (S x y) eqn:E; [|reflexivity]. rewrite (I x y E) in H. discriminate. Qed.
Lemma rho_top b c : rho k false false b c = 0.
Proof. destruct k, b, c; reflexivity. Qed.
Lemma rho_right b c : rho k false b false c = 0.
Proof. destruct k, b, c; reflexivity. Qed.
Lemma chi_chi' S : inside S -> chi' S = chi S.
Proof.
  intros I. unfold chi', chi, box_sum. rewrite !Nat.add_1_r, (zrange_S x0 n), zsum_app2. rewrite (zsum_zero [_]).
  - rewrite Z.add_0_r. apply zsum_ext. intros x _. rewrite zrange_S, zsum_app2. rewrite (zsum_zero [_]); [lia|]. intros y [<-|[]]. unfold rhoc.
    rewrite (inside_out S x _ I), (inside_out S (x - 1) _ I) by (unfold inb; lia). apply rho_top.
  - intros x [<-|[]]. apply zsum_zero. intros y _. unfold rhoc. rewrite !(inside_out S (x0 + Z.of_nat n) _ I) by (unfold inb; lia). apply rho_right.
Qed.
Lemma chi_ext S T : (forall x y, S x y = T x y) -> chi' S = chi' T.
Proof. intros E. unfold chi'. apply box_sum_ext. intros i j. unfold rhoc. rewrite !E. reflexivity. Qed.

(* the neighbours that the complement uses *)
Definition nb (x y u v : Z) : Prop := if k then Z.abs (x - u) + Z.abs (y - v) = 1 else Z.abs (x - u) <= 1 /\ Z.abs (y - v) <= 1.
(* removing cells from the box, each next to a cell that is not in the set *)
Inductive opened : (Z -> Z -> bool) -> Prop :=
| op_box S : (forall x y, S x y = inb x y) -> opened S
| op_rem S zx zy S' : opened S -> S zx zy = true -> (exists u v, nb zx zy u v /\ S u v = false) ->
    (forall x y, S' x y = S x y && negb (pt_is zx zy x y)) -> opened S'.
Lemma opened_inside S : opened S -> inside S.
Proof.
  induction 1 as [S E|S zx zy S' H IH E _ E']; intros x y K; [rewrite <- E; exact K|]. apply IH. rewrite E' in K. lia.
Qed.
Lemma opened_ext S T : opened S -> (forall x y, T x y = S x y) -> opened T.
Proof.
  intros H E. destruct H as [S H|S zx zy S' H E1 E2 E3]; [apply op_box; intros; rewrite E; apply H|]. apply (op_rem S zx zy); try assumption. intros; rewrite E; apply E3.
Qed.

(* labels that are constant on connected cells *)
Definition compat (S : Z -> Z -> bool) (f : Z -> Z -> nat) : Prop :=
  (forall x y, S x y = true -> S (x + 1) y = true -> f x y = f (x + 1) y) /\
  (forall x y, S x y = true -> S x (y + 1) = true -> f x y = f x (y + 1)) /\
  (k = true -> forall x y, S x y = true -> S (x + 1) (y + 1) = true -> f x y = f (x + 1) (y + 1)) /\
  (k = true -> forall x y, S (x + 1) y = true -> S x (y + 1) = true -> f (x + 1) y = f x (y + 1)).
Definition used (S : Z -> Z -> bool) (f : Z -> Z -> nat) (L : list nat) : Prop := NoDup L /\ forall l, In l L -> exists x y, S x y = true /\ f x y = l.

Lemma filter_NoDup {A : Type} (g : A -> bool) l : NoDup l -> NoDup (filter g l).
Proof. induction 1 as [|a l N H IH]; [constructor|]. cbn [filter]. destruct (g a); [|exact IH]. constructor; [|exact IH]. intros K. apply filter_In in K. tauto. Qed.
Lemma filter_split {A : Type} (g : A -> bool) l : (length (filter g l) + length (filter (fun a => negb (g a)) l) = length l)%nat.
Proof. induction l as [|a l IH]; [reflexivity|]. cbn [filter]. destruct (g a); cbn [negb length]; lia. Qed.
Lemma fresh_nat (L : list nat) : exists f, ~ In f L.
Proof.
  exists (Datatypes.S (fold_right max O L)). intros H. assert (K : forall l, In l L -> (l <= fold_right max O L)%nat).
  { clear. induction L as [|a L IH]; intros l [].  - subst. cbn. lia. - cbn [fold_right]. specialize (IH l H). lia. }
  specialize (K _ H). lia.
Qed.

Lemma box_const f : compat inb f -> forall x y, inb x y = true -> f x y = f x0 y0.
Proof.
  intros [H1 [H2 _]]. assert (Hx : forall j : nat, Z.of_nat j < Z.of_nat n -> f (x0 + Z.of_nat j) y0 = f x0 y0).
  { induction j as [|j IH]; intros L; [f_equal; lia|]. rewrite <- IH by lia. replace (x0 + Z.of_nat (Datatypes.S j)) with (x0 + Z.of_nat j + 1) by lia. symmetry. apply H1; unfold inb; lia. }
  assert (Hy : forall j : nat, Z.of_nat j < Z.of_nat m -> forall x, x0 <= x < x0 + Z.of_nat n -> f x (y0 + Z.of_nat j) = f x y0).
  { induction j as [|j IH]; intros L x Hx'; [f_equal; lia|]. rewrite <- IH by lia. replace (y0 + Z.of_nat (Datatypes.S j)) with (y0 + Z.of_nat j + 1) by lia. symmetry. apply H2; unfold inb; lia. }
  intros x y B. unfold inb in B. pose proof (Hy (Z.to_nat (y - y0)) ltac:(lia) x ltac:(lia)) as K1. pose proof (Hx (Z.to_nat (x - x0)) ltac:(lia)) as K2.
  rewrite Z2Nat.id in K1, K2 by lia. replace (y0 + (y - y0)) with y in K1 by lia. replace (x0 + (x - x0)) with x in K2 by lia. congruence.
Qed.
Lemma chi_box : chi' inb = 1.
Proof.
  unfold chi'. rewrite (box_sum_single x0 (n + 1) y0 (m + 1) (rhoc k inb) x0 y0) by (try lia; intros i j; unfold rhoc, pt_is; intros K;
    unfold inb; destruct (Z.leb_spec x0 i), (Z.leb_spec x0 (i - 1)), (Z.ltb_spec i (x0 + Z.of_nat n)), (Z.ltb_spec (i - 1) (x0 + Z.of_nat n)); try lia;
    destruct (Z.leb_spec y0 j), (Z.leb_spec y0 (j - 1)), (Z.ltb_spec j (y0 + Z.of_nat m)), (Z.ltb_spec (j - 1) (y0 + Z.of_nat m)); try lia; cbn [andb]; destruct k; try reflexivity; exfalso; lia).
  unfold rhoc. replace (inb x0 y0) with true by (unfold inb; lia). replace (inb (x0 - 1) y0) with false by (unfold inb; lia).
  replace (inb x0 (y0 - 1)) with false by (unfold inb; lia). replace (inb (x0 - 1) (y0 - 1)) with false by (unfold inb; lia). destruct k; reflexivity.
Qed.

Lemma opened_count S : opened S -> forall f L, compat S f -> used S f L -> Z.of_nat (length L) <= chi' S.
Proof.
  induction 1 as [S E|S zx zy S' H IH Ez [u [v [Nb Eu]]] E']; intros f L C [ND U].
  - rewrite (chi_ext S inb E), chi_box. destruct L as [|a [|b L]]; [cbn; lia|cbn; lia|exfalso].
    assert (C' : compat inb f) by (destruct C as [C1 [C2 [C3 C4]]]; split; [|split; [|split]]; intros; [apply C1|apply C2|apply C3|apply C4]; try assumption; rewrite E; assumption).
    destruct (U a ltac:(cbn; tauto)) as [x [y [Sa Fa]]]. destruct (U b ltac:(cbn; tauto)) as [x' [y' [Sb Fb]]].
    rewrite E in Sa, Sb. rewrite (box_const f C' _ _ Sa) in Fa. rewrite (box_const f C' _ _ Sb) in Fb. inversion ND as [|? ? N1 _]; subst. apply N1. left. congruence.
  - pose proof (opened_inside S H) as In_S. pose proof (In_S _ _ Ez) as Bz.
    assert (Ez' : S' zx zy = false) by (rewrite E', Ez; unfold pt_is; lia).
    assert (Eo : forall x y, pt_is zx zy x y = false -> S' x y = S x y) by (intros x y K; rewrite E', K; apply andb_true_r).
    assert (Sub : forall x y, S' x y = true -> S x y = true) by (intros x y K; rewrite E' in K; lia).
    set (R := reps nat (f zx (zy + 1)) (f (zx + 1) (zy + 1)) (f (zx + 1) zy) (f (zx + 1) (zy - 1)) (f zx (zy - 1)) (f (zx - 1) (zy - 1)) (f (zx - 1) zy) (f (zx - 1) (zy + 1))
      (S' zx (zy + 1)) (S' (zx + 1) (zy + 1)) (S' (zx + 1) zy) (S' (zx + 1) (zy - 1)) (S' zx (zy - 1)) (S' (zx - 1) (zy - 1)) (S' (zx - 1) zy) (S' (zx - 1) (zy + 1)) k).
    assert (Miss : (if k then S' zx (zy + 1) && S' (zx + 1) zy && S' zx (zy - 1) && S' (zx - 1) zy else
      S' zx (zy + 1) && S' (zx + 1) (zy + 1) && S' (zx + 1) zy && S' (zx + 1) (zy - 1) && S' zx (zy - 1) && S' (zx - 1) (zy - 1) && S' (zx - 1) zy && S' (zx - 1) (zy + 1)) = false).
    { assert (Nz : pt_is zx zy u v = false) by (destruct (pt_is zx zy u v) eqn:Q; [unfold pt_is in Q; assert (u = zx) by lia; assert (v = zy) by lia; subst; congruence|reflexivity]).
      assert (Es : S' u v = false) by (rewrite (Eo u v Nz); exact Eu). unfold nb, pt_is in *. destruct k.
      - assert (K : (u = zx /\ (v = zy + 1 \/ v = zy - 1)) \/ (v = zy /\ (u = zx + 1 \/ u = zx - 1))) by lia. clear - K Es.
        destruct K as [[-> [-> | ->]]|[-> [-> | ->]]]; rewrite Es; rewrite ?andb_false_r; reflexivity.
      - assert (K : (u = zx /\ (v = zy + 1 \/ v = zy - 1)) \/ ((u = zx + 1 \/ u = zx - 1) /\ (v = zy + 1 \/ v = zy \/ v = zy - 1))) by lia. clear - K Es.
        destruct K as [[-> [-> | ->]]|[[-> | ->] [-> |[-> | ->]]]]; rewrite Es; rewrite ?andb_false_r; reflexivity. }
    assert (Chi : chi' S - chi' S' = 1 - Z.of_nat (length R)).
    { unfold R. rewrite reps_length by exact Miss. unfold chi'. unfold inb in Bz. rewrite (box_sum_local _ _ _ _ _ _ zx zy); try lia.
      - unfold rhoc. replace (zx + 1 - 1) with zx by lia. replace (zy + 1 - 1) with zy by lia. rewrite Ez, Ez'. rewrite <- !Eo by (unfold pt_is; lia). reflexivity.
      - intros i j K1 K2 K3 K4. unfold rhoc. rewrite !Eo; [reflexivity|..]; unfold pt_is in *; lia. }
    assert (Cov : forall x y, S' x y = true -> (Z.abs (x - zx) + Z.abs (y - zy) = 1 \/ (k = true /\ Z.abs (x - zx) = 1 /\ Z.abs (y - zy) = 1)) -> In (f x y) R).
    { destruct C as [C1 [C2 [C3 C4]]]. unfold R. clear - C1 C2 C3 C4 Miss.
      assert (D1 : forall x y, S' (x - 1) y = true -> S' x y = true -> f (x - 1) y = f x y) by (intros x y A B; pose proof (C1 (x - 1) y) as Q; replace (x - 1 + 1) with x in Q by lia; apply Q; assumption).
      assert (D2 : forall x y, S' x (y - 1) = true -> S' x y = true -> f x (y - 1) = f x y) by (intros x y A B; pose proof (C2 x (y - 1)) as Q; replace (y - 1 + 1) with y in Q by lia; apply Q; assumption).
      destruct k eqn:Ek.
      - specialize (C3 eq_refl). specialize (C4 eq_refl). 
        edestruct (reps_cover8 nat (f zx (zy + 1)) (f (zx + 1) (zy + 1)) (f (zx + 1) zy) (f (zx + 1) (zy - 1)) (f zx (zy - 1)) (f (zx - 1) (zy - 1)) (f (zx - 1) zy) (f (zx - 1) (zy + 1)) (S' zx (zy + 1)) (S' (zx + 1) (zy + 1)) (S' (zx + 1) zy) (S' (zx + 1) (zy - 1)) (S' zx (zy - 1)) (S' (zx - 1) (zy - 1)) (S' (zx - 1) zy) (S' (zx - 1) (zy + 1)) Miss) as [[K1 [K2 [K3 K4]]] [K5 [K6 [K7 K8]]]].
        + intros A B. apply C1; assumption.
        + intros A B. symmetry. apply C2; assumption.
        + intros A B. symmetry. apply D2; assumption.
        + intros A B. symmetry. apply C1; assumption.
        + intros A B. symmetry. apply D1; assumption.
        + intros A B. apply D2; assumption.
        + intros A B. apply C2; assumption.
        + intros A B. apply D1; assumption.
        + intros A B. symmetry. apply C4; assumption.
        + intros A B. pose proof (C3 zx (zy - 1)) as Q. replace (zy - 1 + 1) with zy in Q by lia. symmetry. apply Q; assumption.
        + intros A B. pose proof (C4 (zx - 1) (zy - 1)) as Q. replace (zy - 1 + 1) with zy in Q by lia. replace (zx - 1 + 1) with zx in Q by lia. apply Q; assumption.
        + intros A B. pose proof (C3 (zx - 1) zy) as Q. replace (zx - 1 + 1) with zx in Q by lia. apply Q; assumption.
        + intros x y Sx D. assert (Q : (x = zx /\ (y = zy + 1 \/ y = zy - 1)) \/ ((x = zx + 1 \/ x = zx - 1) /\ (y = zy + 1 \/ y = zy \/ y = zy - 1))) by (clear - D; lia). clear D.
          destruct Q as [[-> [-> | ->]]|[[-> | ->] [-> |[-> | ->]]]]; [apply K1|apply K3|apply K5|apply K2|apply K6|apply K8|apply K4|apply K7]; exact Sx.
      - edestruct (reps_cover4 nat (f zx (zy + 1)) (f (zx + 1) (zy + 1)) (f (zx + 1) zy) (f (zx + 1) (zy - 1)) (f zx (zy - 1)) (f (zx - 1) (zy - 1)) (f (zx - 1) zy) (f (zx - 1) (zy + 1)) (S' zx (zy + 1)) (S' (zx + 1) (zy + 1)) (S' (zx + 1) zy) (S' (zx + 1) (zy - 1)) (S' zx (zy - 1)) (S' (zx - 1) (zy - 1)) (S' (zx - 1) zy) (S' (zx - 1) (zy + 1)) Miss) as [K1 [K2 [K3 K4]]].
        + intros A B. apply C1; assumption.
        + intros A B. symmetry. apply C2; assumption.
        + intros A B. symmetry. apply D2; assumption.
        + intros A B. symmetry. apply C1; assumption.
        + intros A B. symmetry. apply D1; assumption.
        + intros A B. apply D2; assumption.
        + intros A B. apply C2; assumption.
        + intros A B. apply D1; assumption.
        + intros x y Sx D. assert (Q : (x = zx /\ (y = zy + 1 \/ y = zy - 1)) \/ (y = zy /\ (x = zx + 1 \/ x = zx - 1))) by (destruct D as [D|[D _]]; [clear - D; lia|discriminate]). clear D.
          destruct Q as [[-> [-> | ->]]|[-> [-> | ->]]]; [apply K1|apply K3|apply K2|apply K4]; exact Sx. }
    destruct (fresh_nat L) as [fr Fr]. set (inR := fun l => existsb (Nat.eqb l) R).
    assert (InR : forall l, inR l = true <-> In l R).
    { intros l. unfold inR. rewrite existsb_exists. split; [intros [a [Ha Q]]; apply Nat.eqb_eq in Q; subst; exact Ha|intros Q; exists l; split; [exact Q|apply Nat.eqb_refl]]. }
    set (f' := fun x y => if pt_is zx zy x y then fr else if inR (f x y) then fr else f x y).
    assert (K : Z.of_nat (length (fr :: filter (fun l => negb (inR l)) L)) <= chi' S).
    { apply (IH f').
      - assert (Pair : forall x y x' y', S x y = true -> S x' y' = true -> (S' x y = true -> S' x' y' = true -> f x y = f x' y') ->
          (Z.abs (x - x') + Z.abs (y - y') = 1 \/ (k = true /\ Z.abs (x - x') = 1 /\ Z.abs (y - y') = 1)) -> f' x y = f' x' y').
        { intros x y x' y' S1 S2 Eq Ad. unfold f'. destruct (pt_is zx zy x y) eqn:P1, (pt_is zx zy x' y') eqn:P2.
          - reflexivity.
          - apply pt_is_eq in P1. destruct P1 as [-> ->]. rewrite <- (Eo x' y' P2) in S2.
            assert (Q : In (f x' y') R) by (apply (Cov _ _ S2); clear - Ad; lia). apply InR in Q. rewrite Q. reflexivity.
          - apply pt_is_eq in P2. destruct P2 as [-> ->]. rewrite <- (Eo x y P1) in S1.
            assert (Q : In (f x y) R) by (apply (Cov _ _ S1); clear - Ad; lia). apply InR in Q. rewrite Q. reflexivity.
          - rewrite <- (Eo x y P1) in S1. rewrite <- (Eo x' y' P2) in S2. rewrite (Eq S1 S2). reflexivity. }
        destruct C as [C1 [C2 [C3 C4]]]. split; [|split; [|split]].
        + intros x y S1 S2. apply Pair; [exact S1|exact S2|apply C1|clear; lia].
        + intros x y S1 S2. apply Pair; [exact S1|exact S2|apply C2|clear; lia].
        + intros Ek x y S1 S2. apply Pair; [exact S1|exact S2|apply C3; exact Ek|clear - Ek; lia].
        + intros Ek x y S1 S2. apply Pair; [exact S1|exact S2|apply C4; exact Ek|clear - Ek; lia].
      - split; [constructor; [|apply filter_NoDup; exact ND]; intros Q; apply filter_In in Q; tauto|]. intros l [<-|Q].
        + exists zx, zy. split; [exact Ez|]. unfold f'. replace (pt_is zx zy zx zy) with true by (unfold pt_is; lia). reflexivity.
        + apply filter_In in Q. destruct Q as [Q1 Q2]. destruct (U l Q1) as [x [y [Sx Fx]]]. exists x, y. split; [apply Sub; exact Sx|]. unfold f'.
          destruct (pt_is zx zy x y) eqn:P1; [apply pt_is_eq in P1; destruct P1 as [-> ->]; congruence|]. rewrite Fx. destruct (inR l); [discriminate Q2|reflexivity]. }
    assert (Le : (length (filter inR L) <= length R)%nat).
    { apply NoDup_incl_length; [apply filter_NoDup; exact ND|]. intros l Q. apply filter_In in Q. apply InR. apply Q. }
    pose proof (filter_split inR L) as Sp. cbn [length] in K. lia.
Qed.
Lemma chi_pos S x y : opened S -> S x y = true -> 1 <= chi S.
Proof.
  intros H E. rewrite <- chi_chi' by (apply opened_inside; exact H). pose proof (opened_count S H (fun _ _ => O) [O]) as K. cbn [length] in K. apply K.
  - split; [|split; [|split]]; reflexivity.
  - split; [constructor; [intros []|constructor]|]. intros l [<-|[]]. exists x, y. split; [exact E|reflexivity].
Qed.
Lemma chi_empty S : (forall x y, S x y = false) -> chi S = 0.
Proof. intros H. unfold chi, box_sum. apply zsum_zero. intros i _. apply zsum_zero. intros j _. unfold rhoc. rewrite !H. destruct k; reflexivity. Qed.
Lemma chi_full S : (forall x y, S x y = inb x y) -> chi S = 1.
Proof. intros H. rewrite <- chi_chi' by (intros x y; rewrite H; tauto). rewrite (chi_ext S inb H). apply chi_box. Qed.

(* ---------- reaching the outside ---------- *)
Inductive esc (S : Z -> Z -> bool) : Z -> Z -> Prop :=
| esc_out x y : inb x y = false -> esc S x y
| esc_step x y u v : S x y = false -> nb x y u v -> esc S u v -> esc S x y.
Definition cells : list (Z * Z) := flat_map (fun x => map (fun y => (x, y)) (zrange y0 m)) (zrange x0 n).
Lemma zrange_in' a j i : In i (zrange a j) <-> a <= i < a + Z.of_nat j.
Proof.
  unfold zrange. rewrite in_map_iff. split.
  - intros [q [<- Hq]]. apply in_seq in Hq. lia.
  - intros H. exists (Z.to_nat (i - a)). split; [lia|]. apply in_seq. lia.
Qed.
Lemma cells_in x y : In (x, y) cells <-> inb x y = true.
Proof.
  unfold cells, inb. rewrite in_flat_map. split.
  - intros [a [Ha Hb]]. apply in_map_iff in Hb. destruct Hb as [b [E Hb]]. injection E as -> ->. apply zrange_in' in Ha, Hb. lia.
  - intros H. exists x. split; [apply zrange_in'; lia|]. apply in_map_iff. exists y. split; [reflexivity|]. apply zrange_in'. lia.
Qed.
Lemma filter_lt {A : Type} (g h : A -> bool) l a : (forall b, In b l -> h b = true -> g b = true) -> In a l -> g a = true -> h a = false -> (length (filter h l) < length (filter g l))%nat.
Proof.
  induction l as [|b l IH]; intros H Ia Ga Ha; [destruct Ia|].
  assert (Le : forall l', (forall b, In b l' -> h b = true -> g b = true) -> (length (filter h l') <= length (filter g l'))%nat).
  { clear. induction l' as [|b l' IH]; intros H; [cbn; lia|]. cbn [filter]. specialize (IH ltac:(intros c Hc; apply H; right; exact Hc)). pose proof (H b (or_introl eq_refl)) as Hb. destruct (h b); [rewrite (Hb eq_refl); cbn [length]; lia|destruct (g b); cbn [length]; lia]. }
  cbn [filter]. destruct Ia as [-> |Ia].
  - rewrite Ga, Ha. cbn [length]. specialize (Le l ltac:(intros c Hc; apply H; right; exact Hc)). lia.
  - specialize (IH ltac:(intros c Hc; apply H; right; exact Hc) Ia Ga Ha). pose proof (H b (or_introl eq_refl)) as Hb. destruct (h b); [rewrite (Hb eq_refl); cbn [length]; lia|destruct (g b); cbn [length]; lia].
Qed.
Lemma esc_opened S : inside S -> (forall x y, inb x y = true -> S x y = false -> esc S x y) -> opened S.
Proof.
  intros Is He. set (left := fun (B : Z -> Z -> bool) (c : Z * Z) => B (fst c) (snd c) && negb (S (fst c) (snd c))).
  assert (Main : forall j B, (length (filter (left B) cells) <= j)%nat -> opened B -> (forall x y, S x y = true -> B x y = true) -> opened S).
  { induction j as [|j IH]; intros B Lj Ob Sub.
    - apply (opened_ext B); [exact Ob|]. intros x y. destruct (B x y) eqn:Eb.
      + destruct (S x y) eqn:Es; [reflexivity|exfalso]. assert (K : In (x, y) (filter (left B) cells)).
        { apply filter_In. split; [apply cells_in; apply (opened_inside B Ob); exact Eb|]. unfold left. cbn [fst snd]. rewrite Eb, Es. reflexivity. }
        destruct (filter (left B) cells); [destruct K|cbn in Lj; lia].
      + destruct (S x y) eqn:Es; [|reflexivity]. rewrite (Sub x y Es) in Eb. discriminate.
    - destruct (filter (left B) cells) as [|[x y] r] eqn:Ef; [apply (IH B); [rewrite Ef; cbn; lia|exact Ob|exact Sub]|].
      assert (K : In (x, y) (filter (left B) cells)) by (rewrite Ef; left; reflexivity). apply filter_In in K. destruct K as [K1 K2]. apply cells_in in K1. unfold left in K2. cbn [fst snd] in K2. apply andb_prop in K2. destruct K2 as [K2 K3]. apply negb_true_iff in K3.
      assert (Z0 : exists zx zy, B zx zy = true /\ S zx zy = false /\ exists u v, nb zx zy u v /\ B u v = false).
      { specialize (He x y K1 K3). clear - He K2 Ob Hn Hm. induction He as [x y Bo|x y u v Sx Nb _ IH].
        - rewrite (opened_inside B Ob x y K2) in Bo. discriminate.
        - destruct (B u v) eqn:Eb; [apply IH; reflexivity|]. exists x, y. split; [exact K2|]. split; [exact Sx|]. exists u, v. tauto. }
      destruct Z0 as [zx [zy [Z1 [Z2 Z3]]]]. apply (IH (fun x y => B x y && negb (pt_is zx zy x y))).
      + assert (Lt : (length (filter (left (fun x y => B x y && negb (pt_is zx zy x y))) cells) < length (filter (left B) cells))%nat); [|rewrite Ef in Lt; lia].
        apply (filter_lt _ _ _ (zx, zy)).
        * intros [a b] _. unfold left. cbn [fst snd]. lia.
        * apply cells_in. apply (opened_inside B Ob). exact Z1.
        * unfold left. cbn [fst snd]. rewrite Z1, Z2. reflexivity.
        * unfold left, pt_is. cbn [fst snd]. rewrite !Z.eqb_refl. cbn. rewrite andb_false_r. reflexivity.
      + apply (op_rem B zx zy); [exact Ob|exact Z1|exact Z3|reflexivity].
      + intros a b Sa. rewrite (Sub a b Sa). cbn [andb]. destruct (pt_is zx zy a b) eqn:P1; [|reflexivity]. unfold pt_is in P1. assert (a = zx) by lia. assert (b = zy) by lia. subst. congruence. }
  apply (Main (length (filter (left inb) cells)) inb); [lia|apply op_box; reflexivity|exact Is].
Qed.
End Box.
