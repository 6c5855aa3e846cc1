(* The winding number of a ring whose edges have been moved is the Euler
   characteristic of the cells of its region in a box. *)
From Verif Require Import Base Units Scan90Spec Poly90Spec PolyCycle PolyFormGood RingWins BoxEuler.
From Coq Require Import Arith.

Lemma zsum_sub {A : Type} (f g : A -> Z) l : zsum (fun a => f a - g a) l = zsum f l - zsum g l.
Proof. induction l as [|a l IH]; [reflexivity|]. unfold zsum in *. cbn [fold_right]. rewrite IH. lia. Qed.
Lemma zr_in a j i : In i (zrange a j) <-> a <= i < a + Z.of_nat j.
Proof. exact (zrange_in' 1 1 (le_n 1) (le_n 1) a j i). Qed.
Lemma zsum_ind a n u K : zsum (fun x => b2z (x =? u) * K) (zrange a n) = b2z ((a <=? u) && (u <? a + Z.of_nat n)) * K.
Proof.
  destruct ((a <=? u) && (u <? a + Z.of_nat n)) eqn:E.
  - rewrite (zsum_single a n _ u); [rewrite Z.eqb_refl; reflexivity|lia|]. intros x Nx. replace (x =? u) with false by lia. reflexivity.
  - rewrite zsum_zero; [reflexivity|]. intros x Hx. apply zr_in in Hx. replace (x =? u) with false by lia. reflexivity.
Qed.

Lemma zrange_cons a j : zrange a (Datatypes.S j) = a :: zrange (a + 1) j.
Proof. unfold zrange. cbn [seq map]. f_equal; [lia|]. rewrite <- seq_shift, map_map. apply map_ext. intros i. lia. Qed.

Lemma zrange_cons' a j : (1 <= j)%nat -> zrange a j = a :: zrange (a + 1) (j - 1).
Proof. intros H. destruct j as [|j]; [lia|]. rewrite zrange_cons. repeat f_equal. lia. Qed.

Section Core.
Variables (Ws : list win) (S : Z -> Z -> bool) (k : bool) (c0 : Z).
Hypothesis Hwn : forall x y, zsum (fun w => b2z (wb w <=? y) * (b2z (wa w <=? x) - b2z (wc w <=? x))) Ws = b2z (S x y) - c0.
Hypothesis Hcyc : forall F : Z -> Z -> Z -> Z, zsum (fun w => F (wz w) (wa w) (wb w)) Ws = zsum (fun w => F (wb w) (wc w) (wd w)) Ws.
(* edges to the east and their ends *)
Record wgood (w : win) : Prop := mk_wgood {
  g_h : gedge S true false (wa w) (wb w) (wc w);
  g_z : gedge S true true (wz w) (wa w) (wb w);
  g_az : wz w <> wb w;
  g_ac : wa w <> wc w;
  g_ad : wb w <> wd w;
  g_1 : wa w < wc w -> wb w < wz w -> S (wa w - 1) (wb w) = false /\ (k = true -> S (wa w - 1) (wb w - 1) = false);
  g_2 : wa w < wc w -> wz w < wb w -> S (wa w - 1) (wb w - 1) = true /\ (k = false -> S (wa w - 1) (wb w) = true);
  g_3 : wa w < wc w -> wb w < wd w -> S (wc w) (wb w) = false /\ (k = true -> S (wc w) (wb w - 1) = false);
  g_4 : wa w < wc w -> wd w < wb w -> S (wc w) (wb w - 1) = true /\ (k = false -> S (wc w) (wb w) = true) }.
Hypothesis Hw : Forall wgood Ws.

Lemma wn_vertical x y : zsum (fun w => b2z (wa w <=? x) * (b2z (wb w <=? y) - b2z (wz w <=? y))) Ws = b2z (S x y) - c0.
Proof.
  rewrite <- Hwn. pose proof (Hcyc (fun z a _ => b2z (a <=? x) * b2z (z <=? y))) as C. cbn beta in C.
  rewrite (zsum_ext _ (fun w => b2z (wa w <=? x) * b2z (wb w <=? y) - b2z (wa w <=? x) * b2z (wz w <=? y))) by (intros; lia).
  rewrite (zsum_ext (fun w => b2z (wb w <=? y) * (b2z (wa w <=? x) - b2z (wc w <=? x))) (fun w => b2z (wa w <=? x) * b2z (wb w <=? y) - b2z (wc w <=? x) * b2z (wb w <=? y))) by (intros; lia).
  rewrite !zsum_sub, C. reflexivity.
Qed.
Lemma zsum_pos {A : Type} (f : A -> Z) l : (forall a, In a l -> 0 <= f a) -> zsum f l <> 0 -> exists a, In a l /\ 0 < f a.
Proof.
  induction l as [|a l IH]; intros H N; [exfalso; apply N; reflexivity|]. destruct (Z_lt_dec 0 (f a)) as [C|C]; [exists a; split; [left; reflexivity|exact C]|].
  destruct IH as [b [Hb Fb]]; [intros b Hb; apply H; right; exact Hb| |exists b; split; [right; exact Hb|exact Fb]]. pose proof (H a (or_introl eq_refl)). unfold zsum in *. cbn [fold_right] in N. lia.
Qed.
Lemma mult_gen (p q : win -> bool) (t : bool) dlt : zsum (fun w => b2z (p w) - b2z (q w)) Ws = dlt -> (t = true -> dlt = 1) ->
  (forall w, In w Ws -> p w = true -> t = true) -> (forall w, In w Ws -> q w = true -> t = false) -> zsum (fun w => b2z (p w)) Ws = b2z t.
Proof.
  intros D T Hp Hq. rewrite zsum_sub in D. destruct t.
  - rewrite (zsum_zero Ws (fun w => b2z (q w))) in D; [rewrite T in D by reflexivity; cbn [b2z]; lia|]. intros w Iw. destruct (q w) eqn:Eq; [discriminate (Hq w Iw Eq)|reflexivity].
  - apply zsum_zero. intros w Iw. destruct (p w) eqn:Eq; [discriminate (Hp w Iw Eq)|reflexivity].
Qed.
(* every piece of the boundary belongs to one edge *)
Lemma mult_E x y : zsum (fun w => b2z ((wb w =? y) && (wa w <=? x) && (x <? wc w))) Ws = b2z (S x y && negb (S x (y - 1))).
Proof.
  rewrite Forall_forall in Hw. apply (mult_gen _ (fun w => (wb w =? y) && (wc w <=? x) && (x <? wa w)) _ (b2z (S x y) - b2z (S x (y - 1)))).
  - replace (b2z (S x y) - b2z (S x (y - 1))) with ((b2z (S x y) - c0) - (b2z (S x (y - 1)) - c0)) by lia. rewrite <- !Hwn, <- zsum_sub. apply zsum_ext. intros w _.
    destruct (Z.leb_spec (wb w) y), (Z.leb_spec (wb w) (y - 1)), (Z.eqb_spec (wb w) y); try lia; destruct (Z.leb_spec (wa w) x), (Z.leb_spec (wc w) x), (Z.ltb_spec x (wc w)), (Z.ltb_spec x (wa w)); cbn [b2z andb]; lia.
  - destruct (S x y), (S x (y - 1)); cbn; intros; (discriminate || reflexivity).
  - intros w Iw E. destruct (Hw w Iw) as [[H _] _ _ _ _ _ _ _ _]. destruct (H x ltac:(lia)) as [K1 K2]. replace (wb w) with y in * by lia. rewrite K1, K2. reflexivity.
  - intros w Iw E. destruct (Hw w Iw) as [[_ H] _ _ _ _ _ _ _ _]. destruct (H x ltac:(lia)) as [K1 K2]. replace (wb w) with y in * by lia. rewrite K1, K2. reflexivity.
Qed.
Lemma mult_S x y : zsum (fun w => b2z ((wa w =? x) && (wb w <=? y) && (y <? wz w))) Ws = b2z (S x y && negb (S (x - 1) y)).
Proof.
  rewrite Forall_forall in Hw. apply (mult_gen _ (fun w => (wa w =? x) && (wz w <=? y) && (y <? wb w)) _ (b2z (S x y) - b2z (S (x - 1) y))).
  - replace (b2z (S x y) - b2z (S (x - 1) y)) with ((b2z (S x y) - c0) - (b2z (S (x - 1) y) - c0)) by lia. rewrite <- !wn_vertical, <- zsum_sub. apply zsum_ext. intros w _.
    destruct (Z.leb_spec (wa w) x), (Z.leb_spec (wa w) (x - 1)), (Z.eqb_spec (wa w) x); try lia; destruct (Z.leb_spec (wb w) y), (Z.leb_spec (wz w) y), (Z.ltb_spec y (wz w)), (Z.ltb_spec y (wb w)); cbn [b2z andb]; lia.
  - destruct (S x y), (S (x - 1) y); cbn; intros; (discriminate || reflexivity).
  - intros w Iw E. destruct (Hw w Iw) as [_ [_ H] _ _ _ _ _ _ _]. destruct (H y ltac:(lia)) as [K1 K2]. replace (wa w) with x in * by lia. rewrite K1, K2. reflexivity.
  - intros w Iw E. destruct (Hw w Iw) as [_ [H _] _ _ _ _ _ _ _]. destruct (H y ltac:(lia)) as [K1 K2]. replace (wa w) with x in * by lia. rewrite K1, K2. reflexivity.
Qed.

Variables (x0 : Z) (n : nat) (y0 : Z) (m : nat).
Hypothesis Hn : (1 <= n)%nat.
Hypothesis Hm : (1 <= m)%nat.
(* the x coordinate of a moved vertical edge is at most that of the cell *)
Definition ax (z a b : Z) : Z := if z <? b then b2z (a <=? x0) else b2z (a <? x0 + Z.of_nat n).
Definition ay (a b c : Z) : Z := if a <? c then b2z (b <? y0 + Z.of_nat m) else b2z (b <=? y0).
Definition g1 (x y : Z) : Z := if x =? x0 then 1 else 1 - b2z (S (x - 1) y || (k && S (x - 1) (y - 1))).
Definition g2 (x y : Z) : Z := if x =? x0 then 0 else b2z (S x (y - 1) && (k || S x y)).

Lemma east_edge w : wgood w -> wa w < wc w ->
  ax (wz w) (wa w) (wb w) - ax (wb w) (wc w) (wd w) =
  zsum (fun x => b2z ((wa w <=? x) && (x <? wc w)) * g1 x (wb w) - b2z ((wa w <=? x - 1) && (x - 1 <? wc w)) * g2 x (wb w)) (zrange x0 n).
Proof.
  intros [[H _] _ Az Ac Ad G1 G2 G3 G4] L. set (a := wa w) in *. set (b := wb w) in *. set (c := wc w) in *.
  set (sg := b2z (b <? wz w)). set (tu := b2z (wd w <? b)).
  rewrite (zsum_ext _ (fun x => b2z (x =? x0) * b2z ((a <=? x0) && (x0 <? c)) + (b2z (x =? a) * (b2z (x0 <? a) * sg) - b2z (x =? c) * (b2z (x0 <? c) * tu)))).
  - rewrite zsum_add, zsum_sub, !zsum_ind. unfold ax, sg, tu. clear - Az Ac Ad L Hn.
    destruct (Z.ltb_spec (wz w) b), (Z.ltb_spec b (wz w)); try lia; destruct (Z.ltb_spec b (wd w)), (Z.ltb_spec (wd w) b); try lia;
    destruct (Z.leb_spec a x0), (Z.ltb_spec a (x0 + Z.of_nat n)), (Z.leb_spec c x0), (Z.ltb_spec c (x0 + Z.of_nat n)), (Z.ltb_spec x0 a), (Z.ltb_spec x0 c), (Z.leb_spec x0 x0), (Z.ltb_spec x0 (x0 + Z.of_nat n)), (Z.leb_spec x0 a), (Z.leb_spec x0 c); try lia; cbn [andb b2z]; lia.
  - intros x Hx. apply zr_in in Hx. unfold g1, g2.
    assert (K1 : a < x < c -> S (x - 1) b = true) by (intros K; apply (H (x - 1)); clear - K; lia).
    assert (K2 : a <= x < c -> S x (b - 1) = false) by (intros K; destruct (H x K) as [_ Q]; exact Q).
    assert (A1 : x = a -> 1 - b2z (S (x - 1) b || (k && S (x - 1) (b - 1))) = sg).
    { intros ->. unfold sg. specialize (G1 L). specialize (G2 L). clear - G1 G2 Az. destruct (Z.ltb_spec b (wz w)) as [C|C].
      - destruct (G1 C) as [Q1 Q2]. rewrite Q1. destruct k; [rewrite (Q2 eq_refl)|]; reflexivity.
      - destruct (G2 ltac:(lia)) as [Q1 Q2]. rewrite Q1. destruct k; [rewrite andb_true_r, orb_true_r|rewrite (Q2 eq_refl)]; reflexivity. }
    assert (A2 : x = c -> b2z (S x (b - 1) && (k || S x b)) = tu).
    { intros ->. unfold tu. specialize (G3 L). specialize (G4 L). clear - G3 G4 Ad. destruct (Z.ltb_spec (wd w) b) as [C|C].
      - destruct (G4 C) as [Q1 Q2]. rewrite Q1. destruct k; [|rewrite (Q2 eq_refl)]; reflexivity.
      - destruct (G3 ltac:(lia)) as [Q1 Q2]. destruct k; [rewrite (Q2 eq_refl)|rewrite Q1, andb_false_r]; reflexivity. }
    destruct (Z.eqb_spec x x0) as [-> |Nx].
    + destruct (Z.eqb_spec x0 a) as [E1|E1], (Z.eqb_spec x0 c) as [E2|E2]; clear - E1 E2 L; cbn [b2z];
      destruct (Z.ltb_spec x0 a), (Z.ltb_spec x0 c); cbn [b2z]; lia.
    + destruct (Z.eqb_spec x a) as [E1|E1]; [|destruct (Z.eqb_spec x c) as [E2|E2]].
      * rewrite (A1 E1). replace (x =? c) with false by (clear - E1 L; lia). replace (a <=? x) with true by (clear - E1 L; lia). replace (x <? c) with true by (clear - E1 L; lia). replace (a <=? x - 1) with false by (clear - E1 L; lia).
        replace (x0 <? a) with true by (clear - E1 Nx Hx; lia). cbn [b2z andb]. clear. lia.
      * rewrite (A2 E2). replace (x <? c) with false by (clear - E2 L; lia). rewrite andb_false_r. replace (a <=? x - 1) with true by (clear - E2 L; lia). replace (x - 1 <? c) with true by (clear - E2 L; lia).
        replace (x0 <? c) with true by (clear - E2 Nx Hx; lia). cbn [b2z andb]. clear. lia.
      * destruct ((a <=? x) && (x <? c)) eqn:E3.
        -- rewrite (K1 ltac:(clear - E1 E2 E3; lia)), (K2 ltac:(clear - E1 E2 E3; lia)). cbn [orb andb b2z]. clear. lia.
        -- replace ((a <=? x - 1) && (x - 1 <? c)) with false by (clear - E1 E2 E3; lia). cbn [b2z]. clear. lia.
Qed.
Lemma west_cols a : b2z (a <? x0 + Z.of_nat n) = b2z (a <=? x0) + zsum (fun x => b2z (x =? a) * b2z (negb (x =? x0) && (x0 <? a))) (zrange x0 n).
Proof.
  rewrite (zsum_ext _ (fun x => b2z (x =? a) * b2z (x0 <? a))).
  - rewrite zsum_ind. destruct (Z.ltb_spec a (x0 + Z.of_nat n)), (Z.leb_spec a x0), (Z.leb_spec x0 a), (Z.ltb_spec x0 a); cbn [b2z andb]; lia.
  - intros x _. destruct (Z.eqb_spec x a), (Z.eqb_spec x x0), (Z.ltb_spec x0 a); cbn [b2z andb negb]; lia.
Qed.

Definition Sb (x y : Z) : bool := S x y && inb x0 n y0 m x y.
Lemma rho_row b1 b2 : rho k b1 b2 false false = b2z (b1 && negb b2).
Proof. destruct k, b1, b2; reflexivity. Qed.

Theorem moved_euler : zsum (fun w => ay (wa w) (wb w) (wc w) * (ax (wz w) (wa w) (wb w) - ax (wb w) (wc w) (wd w))) Ws = chi k x0 n y0 m Sb - c0.
Proof.
  pose proof Hw as Hw'. rewrite Forall_forall in Hw'.
  (* the first row *)
  assert (P1 : zsum (fun w => b2z (wb w <=? y0) * (ax (wz w) (wa w) (wb w) - ax (wb w) (wc w) (wd w))) Ws = zsum (fun x => rhoc k Sb x y0) (zrange x0 n) - c0).
  { transitivity (zsum (fun w => ax (wz w) (wa w) (wb w) * (b2z (wb w <=? y0) - b2z (wz w <=? y0))) Ws).
    { pose proof (Hcyc (fun z a b => b2z (z <=? y0) * ax z a b)) as C. cbn beta in C.
      rewrite (zsum_ext _ (fun w => b2z (wb w <=? y0) * ax (wz w) (wa w) (wb w) - b2z (wb w <=? y0) * ax (wb w) (wc w) (wd w))) by (intros; lia). rewrite zsum_sub, <- C, <- zsum_sub. apply zsum_ext. intros; lia. }
    transitivity (zsum (fun w => b2z (wa w <=? x0) * (b2z (wb w <=? y0) - b2z (wz w <=? y0)) +
      zsum (fun x => b2z (negb (x =? x0)) * b2z ((wa w =? x) && (wb w <=? y0) && (y0 <? wz w))) (zrange x0 n)) Ws).
    { apply zsum_ext. intros w Iw. unfold ax. pose proof (g_az w (Hw' w Iw)) as Az. destruct (Z.ltb_spec (wz w) (wb w)) as [C|C].
      - rewrite (zsum_zero (zrange x0 n)); [lia|]. intros x _. replace ((wb w <=? y0) && (y0 <? wz w)) with false by lia. rewrite <- andb_assoc. replace ((wb w <=? y0) && (y0 <? wz w)) with false by lia. rewrite andb_false_r. cbn [b2z]. lia.
      - rewrite west_cols. rewrite Z.mul_add_distr_r. f_equal. rewrite Z.mul_comm, <- zsum_scale. apply zsum_ext. intros x Hx. apply zr_in in Hx.
        destruct (Z.eqb_spec x (wa w)), (Z.eqb_spec (wa w) x), (Z.eqb_spec x x0), (Z.ltb_spec x0 (wa w)), (Z.leb_spec (wb w) y0), (Z.leb_spec (wz w) y0), (Z.ltb_spec y0 (wz w)); cbn [b2z andb negb]; lia. }
    rewrite zsum_add, wn_vertical, zsum_swap.
    rewrite (zsum_ext (fun b => zsum (fun a => b2z (negb (b =? x0)) * b2z ((wa a =? b) && (wb a <=? y0) && (y0 <? wz a))) Ws) (fun x => b2z (negb (x =? x0)) * b2z (S x y0 && negb (S (x - 1) y0)))) by (intros x _; rewrite zsum_scale, mult_S; reflexivity).
    rewrite (zrange_cons' x0 n Hn), !Poly90Proofs.zsum_cons. rewrite Z.eqb_refl. cbn [negb]. change (b2z false) with 0.
    rewrite (zsum_ext _ (fun x => rhoc k Sb x y0)).
    - unfold rhoc at 2. unfold Sb. replace (inb x0 n y0 m x0 y0) with true by (unfold inb; lia). replace (inb x0 n y0 m (x0 - 1) y0) with false by (unfold inb; lia).
      replace (inb x0 n y0 m x0 (y0 - 1)) with false by (unfold inb; lia). replace (inb x0 n y0 m (x0 - 1) (y0 - 1)) with false by (unfold inb; lia).
      rewrite !andb_false_r, !andb_true_r, rho_row. cbn [negb]. rewrite andb_true_r. lia.
    - intros x Hx. apply zr_in in Hx. replace (x =? x0) with false by lia. cbn [negb]. unfold rhoc, Sb. replace (inb x0 n y0 m x y0) with true by (unfold inb; lia). replace (inb x0 n y0 m (x - 1) y0) with true by (unfold inb; lia).
      replace (inb x0 n y0 m x (y0 - 1)) with false by (unfold inb; lia). replace (inb x0 n y0 m (x - 1) (y0 - 1)) with false by (unfold inb; lia).
      rewrite !andb_false_r, !andb_true_r, rho_row. cbn [b2z]. lia. }
  (* the other rows *)
  assert (P2 : zsum (fun w => b2z ((wa w <? wc w) && (y0 <? wb w) && (wb w <? y0 + Z.of_nat m)) * (ax (wz w) (wa w) (wb w) - ax (wb w) (wc w) (wd w))) Ws =
    zsum (fun x => zsum (fun y => rhoc k Sb x y) (zrange (y0 + 1) (m - 1))) (zrange x0 n)).
  { transitivity (zsum (fun w => zsum (fun x => zsum (fun y => g1 x y * b2z ((wb w =? y) && (wa w <=? x) && (x <? wc w)) - g2 x y * b2z ((wb w =? y) && (wa w <=? x - 1) && (x - 1 <? wc w))) (zrange (y0 + 1) (m - 1))) (zrange x0 n)) Ws).
    { apply zsum_ext. intros w Iw.
      assert (In1 : forall x, zsum (fun y => g1 x y * b2z ((wb w =? y) && (wa w <=? x) && (x <? wc w)) - g2 x y * b2z ((wb w =? y) && (wa w <=? x - 1) && (x - 1 <? wc w))) (zrange (y0 + 1) (m - 1)) =
        b2z ((y0 <? wb w) && (wb w <? y0 + Z.of_nat m)) * (b2z ((wa w <=? x) && (x <? wc w)) * g1 x (wb w) - b2z ((wa w <=? x - 1) && (x - 1 <? wc w)) * g2 x (wb w))).
      { intros x. rewrite (zsum_ext _ (fun y => b2z (y =? wb w) * (b2z ((wa w <=? x) && (x <? wc w)) * g1 x (wb w) - b2z ((wa w <=? x - 1) && (x - 1 <? wc w)) * g2 x (wb w)))).
        - rewrite zsum_ind. f_equal. replace ((y0 + 1 <=? wb w) && (wb w <? y0 + 1 + Z.of_nat (m - 1))) with ((y0 <? wb w) && (wb w <? y0 + Z.of_nat m)) by lia. reflexivity.
        - intros y _. rewrite <- !andb_assoc. destruct (Z.eqb_spec y (wb w)) as [-> |N]; [rewrite Z.eqb_refl; cbn [andb b2z]; lia|]. replace (wb w =? y) with false by lia. cbn [andb b2z]. lia. }
      rewrite (zsum_ext _ _ _ (fun x _ => In1 x)), zsum_scale. destruct (Z.ltb_spec (wa w) (wc w)) as [C|C].
      - rewrite <- east_edge by (try exact C; apply Hw'; exact Iw). cbn [andb]. reflexivity.
      - cbn [andb]. change (b2z false) with 0. rewrite (zsum_zero (zrange x0 n)); [lia|]. intros x _. replace ((wa w <=? x) && (x <? wc w)) with false by lia. replace ((wa w <=? x - 1) && (x - 1 <? wc w)) with false by lia. cbn [b2z]. lia. }
    rewrite zsum_swap. apply zsum_ext. intros x Hx. apply zr_in in Hx. rewrite zsum_swap. apply zsum_ext. intros y Hy. apply zr_in in Hy.
    rewrite zsum_sub, !zsum_scale, !mult_E. unfold rhoc, Sb, g1, g2. clear - Hx Hy Hm. 
    replace (inb x0 n y0 m x y) with true by (unfold inb; lia). replace (inb x0 n y0 m x (y - 1)) with true by (unfold inb; lia). rewrite !andb_true_r.
    destruct (Z.eqb_spec x x0) as [E|E].
    - replace (inb x0 n y0 m (x - 1) y) with false by (unfold inb; lia). replace (inb x0 n y0 m (x - 1) (y - 1)) with false by (unfold inb; lia). rewrite !andb_false_r.
      destruct k, (S x y), (S x (y - 1)); reflexivity.
    - replace (inb x0 n y0 m (x - 1) y) with true by (unfold inb; lia). replace (inb x0 n y0 m (x - 1) (y - 1)) with true by (unfold inb; lia). rewrite !andb_true_r.
      destruct k, (S x y), (S x (y - 1)), (S (x - 1) y), (S (x - 1) (y - 1)); reflexivity. }
  transitivity (zsum (fun w => b2z (wb w <=? y0) * (ax (wz w) (wa w) (wb w) - ax (wb w) (wc w) (wd w)) +
    b2z ((wa w <? wc w) && (y0 <? wb w) && (wb w <? y0 + Z.of_nat m)) * (ax (wz w) (wa w) (wb w) - ax (wb w) (wc w) (wd w))) Ws).
  { apply zsum_ext. intros w _. unfold ay. destruct (Z.ltb_spec (wa w) (wc w)), (Z.leb_spec (wb w) y0), (Z.ltb_spec y0 (wb w)), (Z.ltb_spec (wb w) (y0 + Z.of_nat m)); cbn [andb b2z]; lia. }
  rewrite zsum_add, P1, P2. unfold chi, box_sum. 
  rewrite (zsum_ext (fun i => zsum (fun j => rhoc k Sb i j) (zrange y0 m)) (fun i => rhoc k Sb i y0 + zsum (fun j => rhoc k Sb i j) (zrange (y0 + 1) (m - 1)))) by (intros i _; rewrite (zrange_cons' y0 m Hm); reflexivity).
  rewrite zsum_add. lia.
Qed.
End Core.
