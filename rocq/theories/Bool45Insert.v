(* Sets of 45-degree polygons: inserted polygons, rectangles and sets are boundaries. *)
From Coq Require Import Sorting.Sorted Permutation Reals Lra.
From Verif Require Import Base Units Outcome Scan90Spec Poly90Spec Poly90Model Poly90Proofs GeoSpec PolySpec PolyModel Set90Spec ArbSpec ArbSums ArbOrder ArbSetProofs Ins45Spec Ins45Model Ins45Proofs Ins45Cor Bool45Spec Bool45Model Bool45Proofs.
Local Open Scope Z_scope.

Section lin.
  Context (h : Z -> point -> Z).
  (* h does not change along edges *)
  Context (hc : forall p q, edge_45 (p, q) -> h (fst (characterize p q) - 1) p = h (fst (characterize p q) - 1) q).
  Definition lin (s : set45) : Z := tot (vlin h) (s_data s).
  Definition he (p q z : point) : Z := snd (characterize p q) * h (fst (characterize p q) - 1) z.
  Lemma he_edge p q : edge_45 (p, q) -> he p q p = he p q q.
  Proof. intros E. unfold he. rewrite (hc p q E). reflexivity. Qed.
  Lemma vlin_add3 i c v : 0 <= i <= 3 -> vlin h (add_count i c v) = vlin h v + c * h (i - 1) (v_pt v).
  Proof. intros R. replace i with (i - 1 + 1) at 1 by lia. rewrite vlin_add. assert ((-1 <=? i - 1) && (i - 1 <=? 2) = true) as -> by lia. reflexivity. Qed.
  Lemma pair_lin high p1 p2 p3 : vlin h (half_edge_pair high p1 p2 p3) = dirof high * (he p2 p3 p2 - he p1 p2 p2).
  Proof.
    unfold half_edge_pair, he. destruct (char_range p1 p2) as [R1 _], (char_range p2 p3) as [R2 _]. destruct (characterize p1 p2) as [i s], (characterize p2 p3) as [j t]. cbn [fst snd] in *.
    rewrite !vlin_add3 by assumption. rewrite add_pt. unfold vlin. cbn [v_pt v_down v_flat v_up v_vert]. fold (dirof high). ring.
  Qed.
  Lemma push_lin high p1 p2 p3 s : lin (push_pair high p1 p2 p3 s) = lin s + dirof high * (he p2 p3 p2 - he p1 p2 p2).
  Proof. unfold lin, push_pair. cbn [s_data]. rewrite tot_app. cbn [tot]. rewrite pair_lin. lia. Qed.
  Lemma loop_lin high l : forall pp p s pp' p' s', path_45 p l -> vseq45_loop high pp p l s = (pp', p', s') -> lin s' = lin s + dirof high * (he pp' p' p' - he pp p p) /\ p' = last l p.
  Proof.
    induction l as [|q l IH]; intros pp p s pp' p' s' P H; cbn [vseq45_loop] in H.
    - assert (pp' = pp /\ p' = p /\ s' = s) as [-> [-> ->]] by (repeat split; congruence). cbn [last]. split; [lia|reflexivity].
    - assert (P' : path_45 q l) by (intros e X; apply P; right; exact X). destruct (pt_eqb q p) eqn:Q.
      + apply pt_eqb_iff in Q. subst q. destruct (IH _ _ _ _ _ _ P' H) as [A B]. split; [exact A|]. rewrite B. destruct l; reflexivity.
      + assert (E : edge_45 (p, q)) by (apply P; left; reflexivity). destruct (IH _ _ _ _ _ _ P' H) as [A B]. rewrite push_lin, (he_edge p q E) in A. split; [rewrite A; ring|]. rewrite B, last_next. reflexivity.
  Qed.
  Lemma vseq45_lin ccw hole pts s : cycle_45 pts -> lin (insert_vseq45 ccw hole pts s) = lin s.
  Proof.
    destruct pts as [|f l]; intros H; cbn [insert_vseq45]; [reflexivity|]. fold (high_of ccw hole). destruct (cyc_path f l H) as [P C]. pose proof (next_spec f l) as N. destruct (next_differing f l) as [[q l']|]; [|reflexivity].
    destruct N as [N1 [N2 [N3 N4]]]. destruct (N4 P) as [E P']. destruct (vseq45_loop (high_of ccw hole) f q l' s) as [[pp p] s'] eqn:V. destruct (loop_lin _ l' _ _ _ _ _ _ P' V) as [A B]. rewrite N3, <- B in C. pose proof (he_edge f q E) as HE. pose proof (he_edge _ _ C) as HC. destruct (pt_eqb p f) eqn:Q; cbn [negb].
    - apply pt_eqb_iff in Q. subst f. rewrite push_lin, A, HE. ring.
    - rewrite !push_lin, A, HC, HE. ring.
  Qed.
  Lemma ring45_lin w hole pts s s' : insert_ring45 w hole pts s = Ok s' -> cycle_45 pts -> lin s' = lin s.
  Proof. intros H C. unfold insert_ring45 in H. destruct (points_ccw_d w pts) as [ccw| |]; cbn [obind] in H; try discriminate. assert (s' = insert_vseq45 ccw hole pts s) as -> by congruence. apply vseq45_lin, C. Qed.
  Lemma rings45_lin w hole hs : forall s s', insert_rings45 w hole hs s = Ok s' -> Forall cycle_45 hs -> lin s' = lin s.
  Proof.
    induction hs as [|r hs IH]; intros s s' H F; cbn [insert_rings45] in H; [congruence|].
    destruct (insert_ring45 w hole r s) as [t| |] eqn:E; cbn [obind] in H; try discriminate. inversion F; subst. rewrite (IH _ _ H), (ring45_lin _ _ _ _ _ E); auto.
  Qed.
  Lemma polygon45_lin w hole g s s' : insert_polygon45 w hole g s = Ok s' -> gpoly_45 g -> lin s' = lin s.
  Proof.
    intros H [C D]. unfold insert_polygon45 in H. destruct (insert_ring45 w hole (g_outer g) s) as [t| |] eqn:E; cbn [obind] in H; try discriminate. rewrite (rings45_lin _ _ _ _ _ H D), (ring45_lin _ _ _ _ _ E C). reflexivity.
  Qed.
  Lemma rect45_lin hole r s : lin (insert_rect45 hole r s) = lin s.
  Proof.
    unfold lin, insert_rect45. cbn [s_data]. rewrite tot_app. cbn [tot]. rewrite !pair_lin.
    set (ll := mk_pt (xl r) (yl r)). set (lr := mk_pt (xh r) (yl r)). set (ul := mk_pt (xl r) (yh r)). set (ur := mk_pt (xh r) (yh r)).
    rewrite (he_edge ll lr (or_introl (or_intror eq_refl))), (he_edge lr ur (or_introl (or_introl eq_refl))), (he_edge ur ul (or_introl (or_intror eq_refl))), (he_edge ul ll (or_introl (or_introl eq_refl))). ring.
  Qed.
End lin.
Lemma set45_lin h hole t s : lin h (insert_set45 hole t s) = lin h s + hole_sign hole * lin h t.
Proof.
  unfold lin, insert_set45. cbn [s_data]. rewrite tot_app. f_equal. unfold hole_sign. destruct hole; [|lia]. rewrite tot_map. induction (s_data t) as [|v l IH]; [reflexivity|]. cbn [tot]. rewrite IH. unfold vlin, invert. cbn [v_pt v_down v_flat v_up v_vert]. ring.
Qed.

(* the sums of a boundary *)
Definition hline (r b : Z) (s : Z) (q : point) : Z := if (s =? r) && (py q =? r * px q + b) then 1 else 0.
Definition hcol (x : Z) (s : Z) (q : point) : Z := if (s =? 2) && (px q =? x) then 1 else 0.
Lemma hline_total r b l : -1 <= r <= 1 -> line_total r b l = tot (vlin (hline r b)) l.
Proof.
  intros R. apply tot_ext. intros v _. unfold vlin, hline, slope_count. assert (2 =? r = false) as -> by lia. destruct (py (v_pt v) =? r * px (v_pt v) + b); rewrite ?andb_false_r, ?andb_true_r; cbn [andb]; [|lia].
  destruct (Z.eq_dec r (-1)) as [->|N0]; [cbn [Z.eqb Pos.eqb]; lia|]. destruct (Z.eq_dec r 0) as [->|N1]; [cbn [Z.eqb Pos.eqb]; lia|]. assert (r = 1) as -> by lia. cbn [Z.eqb Pos.eqb]. lia.
Qed.
Lemma hcol_total x l : column_total x l = tot (vlin (hcol x)) l.
Proof. apply tot_ext. intros v _. unfold vlin, hcol. cbn [Z.eqb Pos.eqb andb]. destruct (px (v_pt v) =? x); lia. Qed.
Lemma char_slope p q : edge_45 (p, q) -> let i := fst (characterize p q) in (i = 3 -> px p = px q) /\ (i = 0 -> py p + px p = py q + px q) /\ (i = 1 -> py p = py q) /\ (i = 2 -> py p - px p = py q - px q).
Proof. unfold edge_45, axis_edge, characterize. cbn [fst snd]. intros H. destruct (px p =? px q) eqn:A, (py p =? py q) eqn:B, (px p <? px q) eqn:C, (py p <? py q) eqn:D; cbn [fst]; repeat split; intros; lia. Qed.
Lemma hline_const r b p q : edge_45 (p, q) -> -1 <= r <= 1 -> hline r b (fst (characterize p q) - 1) p = hline r b (fst (characterize p q) - 1) q.
Proof.
  intros E R. destruct (char_slope p q E) as [_ [H0 [H1 H2]]]. set (i := fst (characterize p q)) in *. unfold hline. destruct (i - 1 =? r) eqn:X; [|reflexivity]. cbn [andb].
  assert (i = 0 /\ r = -1 \/ i = 1 /\ r = 0 \/ i = 2 /\ r = 1) as [[Y ->]|[[Y ->]|[Y ->]]] by lia; [specialize (H0 Y)|specialize (H1 Y)|specialize (H2 Y)]; (match goal with |- (if ?a then _ else _) = (if ?b then _ else _) => assert (a = b) as -> by (apply bool_eq; rewrite !Z.eqb_eq; lia); reflexivity end).
Qed.
Lemma hcol_const x p q : edge_45 (p, q) -> hcol x (fst (characterize p q) - 1) p = hcol x (fst (characterize p q) - 1) q.
Proof. intros E. destruct (char_slope p q E) as [H3 _]. unfold hcol. destruct (_ =? 2) eqn:X; [|reflexivity]. rewrite H3 by lia. reflexivity. Qed.

Definition bvalid (s : set45) : Prop := boundary45 (s_data s) /\ (s_manhattan s = true -> rectilinear45 (s_data s)).
Lemma bvalid_s s : bvalid s -> svalid s.
Proof. intros [[A _] B]. split; assumption. Qed.
Lemma bvalid_step s s' : grows s s' -> (forall h, (forall p q, edge_45 (p, q) -> h (fst (characterize p q) - 1) p = h (fst (characterize p q) - 1) q) -> lin h s' = lin h s) -> bvalid s -> bvalid s'.
Proof.
  intros [_ G] L B. destruct (G (bvalid_s s B)) as [G1 G2]. destruct B as [[_ [B2 B3]] _]. split; [split; [exact G1|split]|exact G2].
  - intros r b R. rewrite (hline_total r b _ R), <- (B2 r b R), (hline_total r b _ R). apply L. intros p q E. apply hline_const; assumption.
  - intros x. rewrite hcol_total, <- (B3 x), hcol_total. apply L. intros p q E. apply hcol_const, E.
Qed.
Lemma polygon45_bvalid w hole g s s' : insert_polygon45 w hole g s = Ok s' -> gpoly_45 g -> bvalid s -> bvalid s'.
Proof. intros H G. apply bvalid_step; [apply (polygon45_ok w hole g s s' H G)|]. intros h hc. apply (polygon45_lin h hc w hole g s s' H G). Qed.
Lemma rect45_bvalid hole r s : rect_ok r -> bvalid s -> bvalid (insert_rect45 hole r s).
Proof. intros R. apply bvalid_step; [apply rect45_grows, R|]. intros h hc. apply (rect45_lin h hc). Qed.
Lemma set45_bvalid hole t s : bvalid t -> bvalid s -> bvalid (insert_set45 hole t s).
Proof.
  intros T B. destruct (set45_grows hole t s (bvalid_s t T)) as [_ G]. destruct (G (bvalid_s s B)) as [G1 G2]. destruct B as [[_ [B2 B3]] _], T as [[_ [T2 T3]] _]. split; [split; [exact G1|split]|exact G2].
  - intros r b R. pose proof (set45_lin (hline r b) hole t s) as L. unfold lin in L. rewrite <- !(hline_total r b _ R), (B2 r b R), (T2 r b R) in L. lia.
  - intros x. pose proof (set45_lin (hcol x) hole t s) as L. unfold lin in L. rewrite <- !hcol_total, B3, T3 in L. lia.
Qed.
Lemma bvalid_empty : bvalid empty45.
Proof. split; [split; [constructor|split; reflexivity]|intros _; constructor]. Qed.
