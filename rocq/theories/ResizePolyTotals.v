(* The number of times a cell is covered after all polygons have been moved. *)
From Verif Require Import Base Units Outcome Scan90Spec VertexLemmas Poly90Spec PolySpec Poly90Model Poly90Proofs PolyCycle Poly90Vertices Poly90Contains
  Set90Spec Set90Model Set90Lemmas Set90Proofs PolyFormModel PolyFormLemmas PolyFormSpec PolyFormRead PolyFormColumns PolyFormCor PolyFormTight
  PolyFormGood RingWins BoxEuler RingEuler RingEscape RingGrow ResizeSpec ResizePolyModel ColinearProofs ResizePolyLemmas ResizePolyProofs.
From Coq Require Import Arith.

(* ---------- sums ---------- *)
Lemma zsum_le0 {A : Type} (f : A -> Z) l : (forall a, In a l -> f a <= 0) -> zsum f l <= 0.
Proof. induction l as [|a l IH]; intros H; [reflexivity|]. rewrite zsum_cons. pose proof (H a (or_introl eq_refl)). specialize (IH (fun b Hb => H b (or_intror Hb))). lia. Qed.
Lemma zsum_le1 {A : Type} (f : A -> Z) l a : (forall a, In a l -> f a <= 0) -> In a l -> zsum f l <= f a.
Proof.
  induction l as [|b l IH]; intros H I; [destruct I|]. destruct I as [<-|I]; rewrite zsum_cons.
  - pose proof (zsum_le0 f l (fun b Hb => H b (or_intror Hb))). lia.
  - specialize (IH (fun b Hb => H b (or_intror Hb)) I). pose proof (H b (or_introl eq_refl)). lia.
Qed.
Lemma zsum_le2 {A : Type} (f : A -> Z) l a b : (forall a, In a l -> f a <= 0) -> In a l -> In b l -> a <> b -> zsum f l <= f a + f b.
Proof.
  induction l as [|c l IH]; intros H Ia Ib N; [destruct Ia|]. assert (H' : forall a, In a l -> f a <= 0) by (intros d Hd; apply H; right; exact Hd). pose proof (H c (or_introl eq_refl)) as Hc. rewrite zsum_cons.
  destruct Ia as [<-|Ia], Ib as [<-|Ib].
  - congruence.
  - pose proof (zsum_le1 f l b H' Ib). lia.
  - pose proof (zsum_le1 f l a H' Ia). lia.
  - specialize (IH H' Ia Ib N). lia.
Qed.
Lemma zsum_neg_in {A : Type} (f : A -> Z) l : zsum f l < 0 -> exists a, In a l /\ f a < 0.
Proof.
  induction l as [|a l IH]; [unfold zsum; cbn [fold_right]; lia|]. rewrite zsum_cons. intros H. destruct (Z_lt_dec (f a) 0) as [C|C]; [exists a; split; [left; reflexivity|exact C]|].
  destruct IH as [b [Ib Hb]]; [lia|]. exists b. split; [right; exact Ib|exact Hb].
Qed.
Lemma zsum2_eq {A : Type} (R : A -> (Z -> Z -> Z) -> Prop) (f : A -> Z) l cs X Y : Forall2 R l cs -> (forall a c, In a l -> R a c -> c X Y = f a) -> zsum (fun c : Z -> Z -> Z => c X Y) cs = zsum f l.
Proof.
  induction 1 as [|a c l cs H F IH]; intros K; [reflexivity|]. rewrite !zsum_cons. rewrite (K a c (or_introl eq_refl) H). f_equal. apply IH. intros b d Hb. apply K. right. exact Hb.
Qed.
Lemma zsum2_ge {A : Type} (R : A -> (Z -> Z -> Z) -> Prop) l cs X Y : Forall2 R l cs -> (forall a c, In a l -> R a c -> 0 <= c X Y) -> 0 <= zsum (fun c : Z -> Z -> Z => c X Y) cs.
Proof.
  induction 1 as [|a c l cs H F IH]; intros K; [reflexivity|]. rewrite !zsum_cons. pose proof (K a c (or_introl eq_refl) H). specialize (IH (fun b d Hb => K b d (or_intror Hb))). lia.
Qed.
Lemma zsum2_ge1 {A : Type} (R : A -> (Z -> Z -> Z) -> Prop) l cs X Y b : Forall2 R l cs -> (forall a c, In a l -> R a c -> 0 <= c X Y) -> In b l -> (forall c, R b c -> 1 <= c X Y) -> 1 <= zsum (fun c : Z -> Z -> Z => c X Y) cs.
Proof.
  induction 1 as [|a c l cs H F IH]; intros K I K1; [destruct I|]. assert (K' : forall a c, In a l -> R a c -> 0 <= c X Y) by (intros d ? Hd; apply K; right; exact Hd). rewrite !zsum_cons. destruct I as [<-|I].
  - pose proof (K1 c H). pose proof (zsum2_ge R l cs X Y F K'). lia.
  - pose proof (K a c (or_introl eq_refl) H). specialize (IH K' I K1). lia.
Qed.
Lemma zsum2_le {A : Type} (R : A -> (Z -> Z -> Z) -> Prop) l cs X Y : Forall2 R l cs -> (forall a c, In a l -> R a c -> c X Y <= 0) -> zsum (fun c : Z -> Z -> Z => c X Y) cs <= 0.
Proof.
  induction 1 as [|a c l cs H F IH]; intros K; [reflexivity|]. rewrite !zsum_cons. pose proof (K a c (or_introl eq_refl) H). specialize (IH (fun b d Hb => K b d (or_intror Hb))). lia.
Qed.

(* ---------- boxes ---------- *)
Definition inbox (x0 x1 y0 y1 x y : Z) : Prop := x0 <= x <= x1 /\ y0 <= y <= y1.
Lemma forallb_false {A : Type} (f : A -> bool) l : forallb f l = false -> exists a, In a l /\ f a = false.
Proof. induction l as [|a l IH]; [discriminate|]. cbn [forallb]. destruct (f a) eqn:E; cbn [andb]; [intros K; destruct (IH K) as [b [I Eb]]; exists b; split; [right; exact I|exact Eb]|]. intros _. exists a. split; [left; reflexivity|exact E]. Qed.
Lemma box_dec (f : Z -> Z -> Z) v x0 x1 y0 y1 : (forall x y, inbox x0 x1 y0 y1 x y -> f x y = v) \/ (exists x y, inbox x0 x1 y0 y1 x y /\ f x y <> v).
Proof.
  set (g := forallb (fun i => forallb (fun j => f i j =? v) (zrange y0 (Z.to_nat (y1 - y0 + 1)))) (zrange x0 (Z.to_nat (x1 - x0 + 1)))). destruct g eqn:E; unfold g in E.
  - left. intros x y [Hx Hy]. rewrite forallb_forall in E. specialize (E x ltac:(apply zrange_in; lia)). cbn beta in E. rewrite forallb_forall in E. specialize (E y ltac:(apply zrange_in; lia)). cbn beta in E. lia.
  - right. apply forallb_false in E as [x [Ix E]]. cbn beta in E. apply forallb_false in E as [y [Iy E]]. apply zrange_in in Ix, Iy. exists x, y. split; [unfold inbox; lia|lia].
Qed.

(* ---------- one polygon ---------- *)
Section Poly.
Variables (P : Z -> Z -> bool) (p : poly90).
Hypothesis Fp : formed p.
Hypothesis Tp : tight P p.
Variables (w e s n X Y : Z).
Hypothesis Hw : 0 <= w.
Hypothesis He : 0 <= e.
Hypothesis Hs : 0 <= s.
Hypothesis Hn : 0 <= n.
Lemma outer_S : strict_ring (p_outer p). Proof. apply Fp. Qed.
Lemma outer_G : gring P true true (p_outer p). Proof. apply Tp. Qed.
Lemma outer_V x y : rwn (p_outer p) x y = - 0 \/ rwn (p_outer p) x y = 1 - 0. Proof. destruct Fp as [[_ K] _]. destruct (K x y) as [Q|Q]; unfold rwn; rewrite Q; [left|right]; reflexivity. Qed.
Lemma hole_S h : In h (p_holes p) -> strict_ring h. Proof. intros I. destruct Fp as [_ [K _]]. rewrite Forall_forall in K. apply (K h I). Qed.
Lemma hole_G h : In h (p_holes p) -> gring P true true h. Proof. intros I. destruct Tp as [_ K]. rewrite Forall_forall in K. apply (K h I). Qed.
Lemma hole_V h : In h (p_holes p) -> forall x y, rwn h x y = - 1 \/ rwn h x y = 1 - 1.
Proof. intros I x y. destruct Fp as [_ [K _]]. rewrite Forall_forall in K. destruct (K h I) as [_ Q]. destruct (Q x y) as [Q1|Q1]; unfold rwn; rewrite Q1; [right|left]; reflexivity. Qed.
Lemma pw_eq x y : poly_winding p x y = rwn (p_outer p) x y + zsum (fun h => rwn h x y) (p_holes p).
Proof. reflexivity. Qed.
Lemma pw01 x y : poly_winding p x y = 0 \/ poly_winding p x y = 1.
Proof. apply Fp. Qed.
Lemma holes_le x y : forall h, In h (p_holes p) -> rwn h x y <= 0.
Proof. intros h I. destruct (hole_V h I x y); lia. Qed.

Definition hR (h : list Z) (c : Z -> Z -> Z) : Prop :=
  (w + e <= dlt px h /\ s + n <= dlt py h /\ forall x y, c x y = mv w e s n h x y) \/ ((dlt px h < w + e \/ dlt py h < s + n) /\ forall x y, c x y = 0).
Definition bR (c : Z -> Z -> Z) : Prop :=
  exists chs, Forall2 hR (p_holes p) chs /\ forall x y, c x y = mv w e s n (p_outer p) x y + zsum (fun ch => ch x y) chs.
Let B := inbox (X - e) (X + w) (Y - n) (Y + s).
Definition all_const : Prop := forall r, r = p_outer p \/ In r (p_holes p) -> forall x y, B x y -> rwn r x y = rwn r (X - e) (Y - n).
Lemma P_const v : (forall x y, B x y -> P x y = v) -> all_const.
Proof.
  intros C r Hr x y [Bx By]. apply (const_box P r (X - e) (X + w) (Y - n) (Y + s) v); [| |intros; apply C; split; assumption|exact Bx|exact By].
  - destruct Hr as [-> |Hr]; [exact outer_S|exact (hole_S r Hr)].
  - destruct Hr as [-> |Hr]; [exact outer_G|exact (hole_G r Hr)].
Qed.
Lemma const_total c : all_const -> bR c -> c X Y = poly_winding p (X - e) (Y - n).
Proof.
  intros A [chs [F E]]. rewrite E, pw_eq. f_equal.
  - apply (mv_up_all P (p_outer p) 0 outer_S outer_G outer_V w e s n X Y ltac:(lia) ltac:(lia)). intros x y Bx By. apply A; [left; reflexivity|split; assumption].
  - apply (zsum2_eq hR (fun h => rwn h (X - e) (Y - n)) _ _ X Y F). intros h c' I [[_ [_ R]]|[D R]]; rewrite R.
    + apply (mv_up_all P h 1 (hole_S h I) (hole_G h I) (hole_V h I) w e s n X Y ltac:(lia) ltac:(lia)). intros x y Bx By. apply A; [right; exact I|split; assumption].
    + destruct (Z.eq_dec (rwn h (X - e) (Y - n)) 0) as [Z0|Z0]; [symmetry; exact Z0|exfalso]. destruct D as [D|D].
      * apply Z0. rewrite <- (A h (or_intror I) (X - e + (w + e)) (Y - n)) by (unfold B, inbox; lia). apply (narrow_x h _ _ _ (hole_S h I) D). exact Z0.
      * apply Z0. rewrite <- (A h (or_intror I) (X - e) (Y - n + (s + n))) by (unfold B, inbox; lia). apply (narrow_y h _ _ _ (hole_S h I) D). exact Z0.
Qed.
Lemma const_pw : all_const -> forall x y, B x y -> poly_winding p x y = poly_winding p (X - e) (Y - n).
Proof. intros A x y Bxy. rewrite !pw_eq. f_equal; [apply A; [left; reflexivity|exact Bxy]|]. apply PolyCycle.zsum_ext. intros h I. apply A; [right; exact I|exact Bxy]. Qed.
Lemma bloat_bounds c : bR c -> 0 <= c X Y /\ ((exists x y, B x y /\ poly_winding p x y = 1) -> 1 <= c X Y).
Proof.
  intros Rc. assert (Done : all_const -> 0 <= c X Y /\ ((exists x y, B x y /\ poly_winding p x y = 1) -> 1 <= c X Y)).
  { intros A. rewrite (const_total c A Rc). split; [destruct (pw01 (X - e) (Y - n)); lia|]. intros [x [y [Bxy E]]]. rewrite <- (const_pw A x y Bxy). lia. }
  destruct (box_dec (rwn (p_outer p)) 0 (X - e) (X + w) (Y - n) (Y + s)) as [O|[x [y [Bxy O]]]].
  - apply Done. intros r [-> |I] x y Bxy; [rewrite !O; [reflexivity|unfold inbox; lia|exact Bxy]|].
    assert (Z0 : forall x y, B x y -> rwn r x y = 0).
    { intros u v Buv. pose proof (pw01 u v) as K. rewrite pw_eq, (O u v Buv) in K. pose proof (zsum_le1 _ _ _ (holes_le u v) I) as L. cbn beta in L. pose proof (holes_le u v r I). lia. }
    rewrite (Z0 x y Bxy). symmetry. apply Z0. unfold B, inbox. lia.
  - assert (Dec : (exists h, In h (p_holes p) /\ forall x y, B x y -> rwn h x y = -1) \/ (forall h, In h (p_holes p) -> exists x y, B x y /\ rwn h x y <> -1)).
    { generalize (p_holes p). induction l as [|h l IH]; [right; intros h []|]. destruct (box_dec (rwn h) (-1) (X - e) (X + w) (Y - n) (Y + s)) as [D|D]; [left; exists h; split; [left; reflexivity|exact D]|].
      destruct IH as [[k [Ik Dk]]|IH]; [left; exists k; split; [right; exact Ik|exact Dk]|]. right. intros k [<-|Ik]; [exact D|exact (IH k Ik)]. }
    destruct Dec as [[h [Ih Dh]]|Dec].
    + apply Done. assert (K : forall u v, B u v -> rwn (p_outer p) u v = 1 /\ forall k, In k (p_holes p) -> rwn k u v = (if list_eq_dec Z.eq_dec k h then -1 else 0)).
      { intros u v Buv. pose proof (pw01 u v) as K. rewrite pw_eq in K. pose proof (zsum_le1 _ _ _ (holes_le u v) Ih) as L. cbn beta in L. rewrite (Dh u v Buv) in L. destruct (outer_V u v) as [Ov|Ov]; [lia|]. split; [lia|].
        intros k Ik. destruct (list_eq_dec Z.eq_dec k h) as [-> |Nk]; [exact (Dh u v Buv)|]. pose proof (zsum_le2 _ _ _ _ (holes_le u v) Ih Ik (not_eq_sym Nk)) as L2. cbn beta in L2. rewrite (Dh u v Buv) in L2. destruct (hole_V k Ik u v); lia. }
      assert (B0 : B (X - e) (Y - n)) by (unfold B, inbox; lia). intros r [-> |Ir] u v Buv; [rewrite (proj1 (K u v Buv)), (proj1 (K _ _ B0)); reflexivity|]. rewrite (proj2 (K u v Buv) r Ir), (proj2 (K _ _ B0) r Ir). reflexivity.
    + assert (L1 : 1 <= c X Y); [|split; [lia|intros _; exact L1]]. destruct Rc as [chs [F E]]. rewrite E.
      assert (Lo : 1 <= mv w e s n (p_outer p) X Y).
      { destruct Bxy as [Bx By]. pose proof (mv_up_some P (p_outer p) 0 outer_S outer_G outer_V w e s n X Y ltac:(lia) ltac:(lia) x y (or_introl eq_refl) Bx By) as M. destruct (outer_V x y) as [Q|Q]; [lia|]. specialize (M Q). lia. }
      assert (Lh : 0 <= zsum (fun ch : Z -> Z -> Z => ch X Y) chs); [|lia]. apply (zsum2_ge hR _ _ X Y F). intros h c' I [[D1 [_ R]]|[_ R]]; rewrite R; [|lia].
      destruct (Dec h I) as [u [v [[Bu Bv] Q]]]. pose proof (mv_up_some P h 1 (hole_S h I) (hole_G h I) (hole_V h I) w e s n X Y ltac:(lia) ltac:(lia) u v (or_intror (conj eq_refl D1)) Bu Bv) as M.
      destruct (hole_V h I u v) as [V|V]; [lia|]. specialize (M V). lia.
Qed.
End Poly.

Section Poly2.
Variables (P : Z -> Z -> bool) (p : poly90).
Hypothesis Fp : formed p.
Hypothesis Tp : tight P p.
Variables (w e s n X Y : Z).
Hypothesis Hw : 0 <= w.
Hypothesis He : 0 <= e.
Hypothesis Hs : 0 <= s.
Hypothesis Hn : 0 <= n.
Definition sR (c : Z -> Z -> Z) : Prop :=
  (w + e <= dlt px (p_outer p) /\ forall x y, c x y = mv (- w) (- e) (- s) (- n) (p_outer p) x y + zsum (fun h => mv (- w) (- e) (- s) (- n) h x y) (p_holes p)) \/
  ((dlt px (p_outer p) < w + e \/ dlt py (p_outer p) < s + n \/ forall x y, mv (- w) (- e) (- s) (- n) (p_outer p) x y = 0) /\ forall x y, c x y = 0).
Let B := inbox (X - w) (X + e) (Y - s) (Y + n).
Lemma shrink_const c v : (forall x y, B x y -> P x y = v) -> sR c -> c X Y = poly_winding p (X - w) (Y - s).
Proof.
  intros C R. pose proof (outer_S p Fp) as So. pose proof (outer_G P p Tp) as Go. pose proof (outer_V p Fp) as Vo.
  assert (A : forall r, r = p_outer p \/ In r (p_holes p) -> forall x y, B x y -> rwn r x y = rwn r (X - w) (Y - s)).
  { intros r Hr x y [Bx By]. apply (const_box P r (X - w) (X + e) (Y - s) (Y + n) v); [| |intros; apply C; split; assumption|exact Bx|exact By].
    - destruct Hr as [-> |Hr]; [exact So|exact (hole_S p Fp r Hr)].
    - destruct Hr as [-> |Hr]; [exact Go|exact (hole_G P p Tp r Hr)]. }
  assert (Ao : mv (- w) (- e) (- s) (- n) (p_outer p) X Y = rwn (p_outer p) (X - w) (Y - s)).
  { apply (mv_dn_all P (p_outer p) 0 So Go Vo w e s n X Y ltac:(lia) ltac:(lia)). intros x y Bx By. apply A; [left; reflexivity|split; assumption]. }
  destruct R as [[_ R]|[D R]]; rewrite R.
  - rewrite Ao. unfold poly_winding. f_equal. apply PolyCycle.zsum_ext. intros h I.
    apply (mv_dn_all P h 1 (hole_S p Fp h I) (hole_G P p Tp h I) (hole_V p Fp h I) w e s n X Y ltac:(lia) ltac:(lia)). intros x y Bx By. apply A; [right; exact I|split; assumption].
  - assert (Z0 : rwn (p_outer p) (X - w) (Y - s) = 0).
    { destruct (Z.eq_dec (rwn (p_outer p) (X - w) (Y - s)) 0) as [Z0|Z0]; [exact Z0|exfalso]. destruct D as [D|[D|D]].
      - apply Z0. rewrite <- (A _ (or_introl eq_refl) (X - w + (w + e)) (Y - s)) by (unfold B, inbox; lia). apply (narrow_x _ _ _ _ So D). exact Z0.
      - apply Z0. rewrite <- (A _ (or_introl eq_refl) (X - w) (Y - s + (s + n))) by (unfold B, inbox; lia). apply (narrow_y _ _ _ _ So D). exact Z0.
      - apply Z0. rewrite <- Ao. apply D. }
    pose proof (pw01 p Fp (X - w) (Y - s)) as K. rewrite pw_eq, Z0 in K. pose proof (zsum_le0 _ _ (holes_le p Fp (X - w) (Y - s))) as L. rewrite pw_eq, Z0. lia.
Qed.
Lemma shrink_le c x y : B x y -> poly_winding p x y = 0 -> sR c -> c X Y <= 0.
Proof.
  intros [Bx By] W R. pose proof (outer_S p Fp) as So. pose proof (outer_G P p Tp) as Go. pose proof (outer_V p Fp) as Vo. destruct R as [[D R]|[_ R]]; rewrite R; [|lia].
  assert (Hole : forall h, In h (p_holes p) -> mv (- w) (- e) (- s) (- n) h X Y <= 0 /\ (rwn h x y = -1 -> mv (- w) (- e) (- s) (- n) h X Y <= -1)).
  { intros h I. assert (K : forall u v, B u v -> rwn h u v <> 0 -> mv (- w) (- e) (- s) (- n) h X Y <= -1).
    { intros u v [Bu Bv] N. apply (mv_dn_some P h 1 (hole_S p Fp h I) (hole_G P p Tp h I) (hole_V p Fp h I) w e s n X Y ltac:(lia) ltac:(lia) u v (or_introl eq_refl) Bu Bv). destruct (hole_V p Fp h I u v); lia. }
    split; [|intros E; apply (K x y); [split; assumption|lia]]. destruct (box_dec (rwn h) 0 (X - w) (X + e) (Y - s) (Y + n)) as [Z0|[u [v [Buv N]]]]; [|specialize (K u v Buv N); lia].
    rewrite (mv_dn_all P h 1 (hole_S p Fp h I) (hole_G P p Tp h I) (hole_V p Fp h I) w e s n X Y ltac:(lia) ltac:(lia) 0); [lia|]. intros u v Bu Bv. apply Z0. split; assumption. }
  pose proof (zsum_le0 (fun h => mv (- w) (- e) (- s) (- n) h X Y) (p_holes p) (fun h I => proj1 (Hole h I))) as L.
  destruct (box_dec (rwn (p_outer p)) 1 (X - w) (X + e) (Y - s) (Y + n)) as [O|[u [v [[Bu Bv] N]]]].
  - rewrite (mv_dn_all P (p_outer p) 0 So Go Vo w e s n X Y ltac:(lia) ltac:(lia) 1) by (intros; apply O; split; assumption).
    rewrite pw_eq, (O x y ltac:(split; assumption)) in W. destruct (zsum_neg_in (fun h => rwn h x y) (p_holes p)) as [h [I Nh]]; [lia|]. cbn beta in Nh.
    assert (E1 : rwn h x y = -1) by (destruct (hole_V p Fp h I x y); lia). pose proof (zsum_le1 (fun h => mv (- w) (- e) (- s) (- n) h X Y) (p_holes p) h (fun h I => proj1 (Hole h I)) I) as L1. cbn beta in L1.
    pose proof (proj2 (Hole h I) E1). lia.
  - pose proof (mv_dn_some P (p_outer p) 0 So Go Vo w e s n X Y ltac:(lia) ltac:(lia) u v (or_intror (conj eq_refl D)) Bu Bv) as M. destruct (Vo u v) as [Q|Q]; [specialize (M Q)|]; lia.
Qed.
End Poly2.

(* ---------- inserting the curves ---------- *)
Definition adds (t t' : pset) (c : Z -> Z -> Z) : Prop := ps_ok t' /\ ps_orient t' = ps_orient t /\ forall x y, ps_count t' x y = ps_count t x y + c x y.
Lemma insert_curve_spec t l f : ps_ok t -> (forall o, exists V, curve_vertices o l = Ok V /\ good o V f) -> exists t', ps_insert_curve t l = Ok t' /\ adds t t' f.
Proof.
  intros O K. destruct (K (ps_orient t)) as [V [E [G1 [G2 G3]]]]. unfold ps_insert_curve. rewrite E. cbn [obind]. eexists. split; [reflexivity|].
  destruct (ps_insert_range_spec t V (ps_orient t) O G1 G2) as [A1 [A2 [A3 _]]]. split; [exact A1|]. split; [exact A2|]. intros x y. unfold ps_count. rewrite A2, A3, G3. reflexivity.
Qed.
Lemma fold_sets {A : Type} (f : pset -> A -> outcome pset) (R : A -> (Z -> Z -> Z) -> Prop) (E : Prop) l :
  (forall t a, In a l -> ps_ok t -> match f t a with Ok t' => exists c, R a c /\ adds t t' c | Overflow => E | Undefined => False end) ->
  forall t, ps_ok t -> match fold_outcome f l t with
  | Ok t' => exists cs, Forall2 R l cs /\ adds t t' (fun x y => zsum (fun c => c x y) cs) | Overflow => E | Undefined => False end.
Proof.
  induction l as [|a l IH]; intros K t O; cbn [fold_outcome].
  - exists []. split; [constructor|]. split; [exact O|]. split; [reflexivity|]. intros x y. unfold zsum. cbn [fold_right]. lia.
  - pose proof (K t a (or_introl eq_refl) O) as K1. destruct (f t a) as [t1| |]; cbn [obind]; [|exact K1|exact K1]. destruct K1 as [c [Rc [O1 [E1 C1]]]].
    specialize (IH (fun t b Hb => K t b (or_intror Hb)) t1 O1). destruct (fold_outcome f l t1) as [t2| |]; [|exact IH|exact IH]. destruct IH as [cs [F [O2 [E2 C2]]]].
    exists (c :: cs). split; [constructor; assumption|]. split; [exact O2|]. split; [congruence|]. intros x y. rewrite C2, C1, zsum_cons. lia.
Qed.
Definition ring_bad (w e s n : Z) (ps : list poly90) : Prop :=
  exists p r, In p ps /\ (r = p_outer p \/ In r (p_holes p)) /\ Exists (bad w e s n) (wins (pairs r)).
Lemma bloat_poly_spec w e s n ps p t : 0 <= w -> 0 <= e -> 0 <= s -> 0 <= n -> In p ps -> formed p -> ps_ok t ->
  match bloat_poly w e s n t p with
  | Ok t' => exists c, bR p w e s n c /\ adds t t' c
  | Overflow => ring_bad w e s n ps \/ INT_MAX < w + e \/ INT_MAX < s + n
  | Undefined => False
  end.
Proof.
  intros Hw He Hs Hn Ip Fp O. unfold bloat_poly. pose proof (resize_up_spec w e s n (p_outer p) (outer_S p Fp)) as K.
  destruct (resize_poly_up w e s n (compact_to_points (p_outer p))) as [l| |]; cbn [obind]; [|left; exists p, (p_outer p); tauto|exact K].
  destruct (insert_curve_spec t l _ O K) as [t1 [-> [O1 [E1 C1]]]]. cbn [obind].
  pose proof (fold_sets (fun t h => try r <- resize_poly_down w e s n (compact_to_points h); match r with Some l => ps_insert_curve t l | None => Ok t end)
    (hR w e s n) (ring_bad w e s n ps \/ INT_MAX < w + e \/ INT_MAX < s + n) (p_holes p)) as Fd.
  match type of Fd with ?H -> _ => assert (H1 : H) end.
  { intros u h Ih Ou. cbn beta. pose proof (resize_down_spec w e s n h (hole_S p Fp h Ih)) as D. rewrite (Z.abs_eq (w + e)), (Z.abs_eq (n + s)) in D by lia.
    destruct (resize_poly_down w e s n (compact_to_points h)) as [[l'|]| |]; cbn [obind].
    - destruct D as [[D1 D2] D3]. destruct (insert_curve_spec u l' _ Ou D3) as [u' [-> Au]]. exists (mv w e s n h). split; [left; split; [exact D1|]; split; [lia|reflexivity]|exact Au].
    - exists (fun _ _ => 0). split.
      + destruct D as [D|[D|[D1 [D2 D3]]]]; [right; split; [left; exact D|reflexivity]|right; split; [right; lia|reflexivity]|left]. split; [exact D1|]. split; [lia|]. intros x y. rewrite D3. reflexivity.
      + split; [exact Ou|]. split; [reflexivity|]. intros x y. lia.
    - unfold is_int in D. destruct D as [D|D]; [left; exists p, h; tauto|]. right. unfold INT_MIN, INT_MAX in *. lia.
    - exact D. }
  specialize (Fd H1 t1 O1). destruct (fold_outcome _ (p_holes p) t1) as [t2| |]; [|exact Fd|exact Fd]. destruct Fd as [chs [F2 [O2 [E2 C2]]]].
  exists (fun x y => mv w e s n (p_outer p) x y + zsum (fun ch => ch x y) chs). split; [exists chs; split; [exact F2|reflexivity]|]. split; [exact O2|]. split; [congruence|]. intros x y. rewrite C2, C1. lia.
Qed.
Lemma shrink_poly_spec w e s n ps p t : 0 <= w -> 0 <= e -> 0 <= s -> 0 <= n -> In p ps -> formed p -> ps_ok t ->
  match shrink_poly w e s n t p with
  | Ok t' => exists c, sR p w e s n c /\ adds t t' c
  | Overflow => ring_bad (- w) (- e) (- s) (- n) ps \/ INT_MAX < w + e \/ INT_MAX < s + n
  | Undefined => False
  end.
Proof.
  intros Hw He Hs Hn Ip Fp O. unfold shrink_poly. pose proof (resize_down_spec (- w) (- e) (- s) (- n) (p_outer p) (outer_S p Fp)) as D.
  replace (Z.abs (- w + - e)) with (w + e) in D by lia. replace (Z.abs (- n + - s)) with (s + n) in D by lia.
  destruct (resize_poly_down (- w) (- e) (- s) (- n) (compact_to_points (p_outer p))) as [[l|]| |]; cbn [obind].
  - destruct D as [[D1 D2] D3]. destruct (insert_curve_spec t l _ O D3) as [t1 [-> [O1 [E1 C1]]]]. cbn [obind].
    pose proof (fold_sets (fun t h => try l <- resize_poly_up (- w) (- e) (- s) (- n) (compact_to_points h); ps_insert_curve t l)
      (fun h c => forall x y, c x y = mv (- w) (- e) (- s) (- n) h x y) (ring_bad (- w) (- e) (- s) (- n) ps \/ INT_MAX < w + e \/ INT_MAX < s + n) (p_holes p)) as Fd.
    match type of Fd with ?H -> _ => assert (H1 : H) end.
    { intros u h Ih Ou. cbn beta. pose proof (resize_up_spec (- w) (- e) (- s) (- n) h (hole_S p Fp h Ih)) as K.
      destruct (resize_poly_up (- w) (- e) (- s) (- n) (compact_to_points h)) as [l'| |]; cbn [obind]; [|left; exists p, h; tauto|exact K].
      destruct (insert_curve_spec u l' _ Ou K) as [u' [-> Au]]. exists (mv (- w) (- e) (- s) (- n) h). split; [reflexivity|exact Au]. }
    specialize (Fd H1 t1 O1). destruct (fold_outcome _ (p_holes p) t1) as [t2| |]; [|exact Fd|exact Fd]. destruct Fd as [chs [F2 [O2 [E2 C2]]]].
    eexists. split; [left; split; [exact D1|intros x y; reflexivity]|]. split; [exact O2|]. split; [congruence|]. intros x y. rewrite C2, C1.
    rewrite (zsum2_eq _ (fun h => mv (- w) (- e) (- s) (- n) h x y) _ _ x y F2) by (intros h c _ Hc; apply Hc). lia.
  - exists (fun _ _ => 0). split; [right; split; [tauto|reflexivity]|]. split; [exact O|]. split; [reflexivity|]. intros x y. lia.
  - unfold is_int in D. destruct D as [D|D]; [left; exists p, (p_outer p); tauto|]. right. unfold INT_MIN, INT_MAX in *. lia.
  - exact D.
Qed.

(* ---------- overflow ---------- *)
Lemma v_cells P a b c : gedge P true true a b c -> a <> c -> (a < c /\ P (b - 1) a = true) \/ (c < a /\ P b c = true).
Proof. cbn [gedge]. intros [H1 H2] N. destruct (Z_lt_dec a c) as [C|C]; [left|right]; (split; [lia|]); [apply (H1 a)|apply (H2 c)]; lia. Qed.
Lemma h_cells P a b c : gedge P true false a b c -> a <> c -> (a < c /\ P a b = true) \/ (c < a /\ P c (b - 1) = true).
Proof. cbn [gedge]. intros [H1 H2] N. destruct (Z_lt_dec a c) as [C|C]; [left|right]; (split; [lia|]); [apply (H1 a)|apply (H2 c)]; lia. Qed.
(* a cell of the region next to the edge that leaves the range *)
Lemma bad_cells P w e s n u : wok P u -> nzw u -> bad w e s n u -> exists x y, P x y = true /\ (~ is_int (x + 1 + e) \/ ~ is_int (x - w) \/ ~ is_int (y + 1 + n) \/ ~ is_int (y - s)).
Proof.
  intros [K1 K2 K3 _ _] [N1 [N2 N3]] H. unfold bad, up_x, up_y in H. destruct H as [H|[H|H]].
  - destruct (v_cells _ _ _ _ K3 N3) as [[C Q]|[C Q]].
    + replace (wz u <? wb u) with true in H by lia. exists (wa u - 1), (wz u). split; [exact Q|]. left. replace (wa u - 1 + 1 + e) with (wa u + e) by lia. exact H.
    + replace (wz u <? wb u) with false in H by lia. exists (wa u), (wb u). split; [exact Q|]. right. left. exact H.
  - destruct (h_cells _ _ _ _ K1 N1) as [[C Q]|[C Q]].
    + replace (wa u <? wc u) with true in H by lia. exists (wa u), (wb u). split; [exact Q|]. right. right. right. exact H.
    + replace (wa u <? wc u) with false in H by lia. exists (wc u), (wb u - 1). split; [exact Q|]. right. right. left. replace (wb u - 1 + 1 + n) with (wb u + n) by lia. exact H.
  - destruct (v_cells _ _ _ _ K2 N2) as [[C Q]|[C Q]].
    + replace (wb u <? wd u) with true in H by lia. exists (wc u - 1), (wb u). split; [exact Q|]. left. replace (wc u - 1 + 1 + e) with (wc u + e) by lia. exact H.
    + replace (wb u <? wd u) with false in H by lia. exists (wc u), (wd u). split; [exact Q|]. right. left. exact H.
Qed.
Lemma ring_bad_cells P w e s n ps : Forall formed ps -> Forall (tight P) ps -> ring_bad w e s n ps -> exists x y, P x y = true /\ (~ is_int (x + 1 + e) \/ ~ is_int (x - w) \/ ~ is_int (y + 1 + n) \/ ~ is_int (y - s)).
Proof.
  intros F T [p [r [Ip [Ir Ex]]]]. rewrite Forall_forall in F, T. pose proof (F p Ip) as Fp. pose proof (T p Ip) as Tp.
  assert (S : strict_ring r) by (destruct Ir as [-> |Ir]; [exact (outer_S p Fp)|exact (hole_S p Fp r Ir)]). assert (G : gring P true true r) by (destruct Ir as [-> |Ir]; [exact (outer_G P p Tp)|exact (hole_G P p Tp r Ir)]).
  apply Exists_exists in Ex as [u [Iu Bu]]. pose proof (gring_wok P r S G) as W. pose proof (strict_nzw r S) as N. rewrite Forall_forall in W, N. exact (bad_cells P w e s n u (W u Iu) (N u Iu) Bu).
Qed.

Lemma strict_box_int l : strict_ring l -> exists n, Z.of_nat n = INT_MAX - INT_MIN /\ Forall (inside_box INT_MIN n INT_MIN n) (ring_points l).
Proof.
  intros [I [[n E] _]]. destruct (Z_of_nat_complete (INT_MAX - INT_MIN)) as [N EN]; [unfold INT_MAX, INT_MIN; lia|]. exists N. split; [symmetry; exact EN|].
  destruct (even_flat n l E) as [cs [El _]]. destruct cs as [|[a b] cs]; [subst l; constructor|].
  replace (ring_points l) with (rp a ((a, b) :: cs)) by (rewrite El, <- ring_points_flat; reflexivity). apply Forall_forall. intros p Hp.
  apply rp_coords in Hp. rewrite <- El in Hp. rewrite Forall_forall in I. destruct Hp as [Hx Hy].
  assert (Hx' : In (px p) l) by (destruct Hx as [->|Hx]; [rewrite El; left; reflexivity|exact Hx]). apply I in Hx', Hy. unfold is_int in *. unfold inside_box. rewrite <- EN. lia.
Qed.
Lemma ring_cell_int r x y : strict_ring r -> rwn r x y <> 0 -> INT_MIN <= x < INT_MAX /\ INT_MIN <= y < INT_MAX.
Proof.
  intros S N. destruct (strict_box_int r S) as [k [Ek B]]. pose proof (winding_outside INT_MIN k INT_MIN k (ring_points r) x y (ring_rect r S) B) as W. unfold rwn in N.
  destruct (Z_le_dec INT_MIN x), (Z_lt_dec x INT_MAX), (Z_le_dec INT_MIN y), (Z_lt_dec y INT_MAX); try (split; split; assumption); exfalso; apply N; apply W; lia.
Qed.
Lemma poly_cell_int p x y : formed p -> poly_winding p x y = 1 -> INT_MIN <= x < INT_MAX /\ INT_MIN <= y < INT_MAX.
Proof.
  intros Fp E. apply (ring_cell_int (p_outer p)); [exact (outer_S p Fp)|]. rewrite pw_eq in E. pose proof (zsum_le0 _ _ (holes_le p Fp x y)). lia.
Qed.

(* ---------- the whole set ---------- *)
Lemma clear_ok t : ps_ok t -> ps_ok (ps_clear t) /\ ps_orient (ps_clear t) = ps_orient t /\ forall x y, ps_count (ps_clear t) x y = 0.
Proof.
  intros O. pose proof (ps_clear_ok t) as K. split; [exact K|]. split; [reflexivity|]. intros x y. unfold ps_count, ps_clear. cbn [ps_orient ps_data]. destruct (ps_orient t); reflexivity.
Qed.
Lemma pw_pos ps x y : (forall p, In p ps -> poly_winding p x y = 0 \/ poly_winding p x y = 1) -> polys_winding ps x y = 1 -> exists p, In p ps /\ poly_winding p x y = 1.
Proof.
  unfold polys_winding. induction ps as [|p ps IH]; [unfold zsum; cbn [fold_right]; lia|]. rewrite zsum_cons. intros H E. destruct (H p (or_introl eq_refl)) as [H0|H1].
  - destruct IH as [q [Iq Eq]]; [intros q Iq; apply H; right; exact Iq|lia|]. exists q. split; [right; exact Iq|exact Eq].
  - exists p. split; [left; reflexivity|exact H1].
Qed.
Lemma pw_zero ps x y : (forall p, In p ps -> poly_winding p x y = 0 \/ poly_winding p x y = 1) -> polys_winding ps x y = 0 -> forall p, In p ps -> poly_winding p x y = 0.
Proof.
  unfold polys_winding. intros H E p Ip. destruct (zsum_nonneg (fun p => poly_winding p x y) ps) as [_ K]; [intros q Iq; cbn beta; destruct (H q Iq); lia|]. exact (K E p Ip).
Qed.
Lemma bloat_spec w e s n t : 0 <= w -> 0 <= e -> 0 <= s -> 0 <= n -> ps_ok t ->
  match ps_bloat w e s n t with
  | Ok t' => ps_ok t' /\ ps_orient t' = ps_orient t /\ (forall x y, 0 <= ps_count t' x y) /\ forall x y, ps_covers t' x y <-> grown w e s n (ps_covers t) x y
  | Overflow => (exists x y, grown w e s n (ps_covers t) x y /\ ~ (is_int x /\ is_int (x + 1) /\ is_int y /\ is_int (y + 1))) \/ INT_MAX < w + e \/ INT_MAX < s + n
  | Undefined => False
  end.
Proof.
  intros Hw He Hs Hn O. destruct (ps_get_polygons_spec false t O) as [ps [t1 [E [O1 [E1 [_ [[F D] [_ T]]]]]]]]. destruct (T eq_refl) as [P [EP T']]. unfold ps_bloat. rewrite E. cbn [lift obind].
  destruct (clear_ok t1 O1) as [O2 [E2 C2]].
  pose proof (fold_sets (bloat_poly w e s n) (fun p c => bR p w e s n c) (ring_bad w e s n ps \/ INT_MAX < w + e \/ INT_MAX < s + n) ps) as Fd.
  match type of Fd with ?H -> _ => assert (H1 : H) end.
  { intros u p Ip Ou. rewrite Forall_forall in F. exact (bloat_poly_spec w e s n ps p u Hw He Hs Hn Ip (F p Ip) Ou). }
  specialize (Fd H1 (ps_clear t1) O2). destruct (fold_outcome (bloat_poly w e s n) ps (ps_clear t1)) as [t'| |]; [| |exact Fd].
  - destruct Fd as [cs [F2 [O3 [E3 C3]]]]. rewrite Forall_forall in F, T'.
    assert (Nn : forall X Y, 0 <= ps_count t' X Y /\ (grown w e s n (ps_covers t) X Y -> 1 <= ps_count t' X Y) /\ (~ grown w e s n (ps_covers t) X Y -> ps_count t' X Y = 0)).
    { intros X Y. rewrite C3, C2. cbn [Z.add]. assert (N0 : forall p c, In p ps -> bR p w e s n c -> 0 <= c X Y) by (intros p c Ip R; exact (proj1 (bloat_bounds P p (F p Ip) (T' p Ip) w e s n X Y Hw He Hs Hn c R))).
      split; [exact (zsum2_ge _ _ _ X Y F2 N0)|]. split.
      - intros [a [b [Ca [Ba Bb]]]]. destruct (D a b) as [D1 _]. destruct (pw_pos ps a b) as [p [Ip Ep]]; [intros q Iq; apply (F q Iq)|exact (D1 Ca)|].
        apply (zsum2_ge1 _ _ _ X Y p F2 N0 Ip). intros c R. apply (bloat_bounds P p (F p Ip) (T' p Ip) w e s n X Y Hw He Hs Hn c R). exists a, b. split; [unfold inbox; lia|exact Ep].
      - intros Ng. assert (Pf : forall x y, inbox (X - e) (X + w) (Y - n) (Y + s) x y -> P x y = false).
        { intros x y [Bx By]. destruct (P x y) eqn:Pxy; [exfalso|reflexivity]. apply Ng. exists x, y. split; [apply EP; exact Pxy|lia]. }
        rewrite (zsum2_eq _ (fun p => poly_winding p (X - e) (Y - n)) _ _ X Y F2).
        + destruct (D (X - e) (Y - n)) as [_ D0]. apply D0. intros K. apply EP in K. rewrite Pf in K; [discriminate|unfold inbox; lia].
        + intros p c Ip R. apply (const_total P p (F p Ip) (T' p Ip) w e s n X Y Hw He Hs Hn c); [|exact R]. exact (P_const P p (F p Ip) (T' p Ip) w e s n X Y false Pf). }
    split; [exact O3|]. split; [congruence|]. split; [intros x y; apply Nn|]. intros x y. destruct (Nn x y) as [N1 [N2 N3]]. unfold ps_covers at 1. split; [|intros K; specialize (N2 K); lia].
    intros C. assert (Dg : grown w e s n (ps_covers t) x y \/ ~ grown w e s n (ps_covers t) x y).
    { destruct (box_dec (fun a b => b2z (P a b)) 0 (x - e) (x + w) (y - n) (y + s)) as [K|[a [b [[Ba Bb] K]]]].
      - right. intros [a [b [Ca [Ba Bb]]]]. apply EP in Ca. specialize (K a b ltac:(unfold inbox; lia)). rewrite Ca in K. discriminate.
      - left. exists a, b. split; [apply EP; destruct (P a b); [reflexivity|exfalso; apply K; reflexivity]|lia]. }
    destruct Dg as [Dg|Dg]; [exact Dg|specialize (N3 Dg); lia].
  - destruct Fd as [Fd|Fd]; [left|right; exact Fd]. destruct (ring_bad_cells P w e s n ps F T' Fd) as [x [y [Pxy K]]]. apply EP in Pxy.
    assert (G : forall a b, x - w <= a <= x + e -> y - s <= b <= y + n -> grown w e s n (ps_covers t) a b) by (intros a b Ha Hb; exists x, y; split; [exact Pxy|lia]).
    destruct K as [K|[K|[K|K]]].
    + exists (x + e), y. split; [apply G; lia|]. replace (x + e + 1) with (x + 1 + e) by lia. tauto.
    + exists (x - w), y. split; [apply G; lia|tauto].
    + exists x, (y + n). split; [apply G; lia|]. replace (y + n + 1) with (y + 1 + n) by lia. tauto.
    + exists x, (y - s). split; [apply G; lia|tauto].
Qed.
Lemma shrink_spec w e s n t : 0 <= w -> 0 <= e -> 0 <= s -> 0 <= n -> ps_ok t ->
  match ps_shrink w e s n t with
  | Ok t' => ps_ok t' /\ ps_orient t' = ps_orient t /\ (forall x y, ps_count t' x y <= 1) /\ forall x y, ps_covers t' x y <-> shrunk w e s n (ps_covers t) x y
  | Overflow => (exists x y, ps_covers t x y /\ ~ (INT_MIN <= x + 1 - e /\ x + w <= INT_MAX /\ INT_MIN <= y + 1 - n /\ y + s <= INT_MAX)) \/ INT_MAX < w + e \/ INT_MAX < s + n
  | Undefined => False
  end.
Proof.
  intros Hw He Hs Hn O. destruct (ps_get_polygons_spec false t O) as [ps [t1 [E [O1 [E1 [_ [[F D] [_ T]]]]]]]]. destruct (T eq_refl) as [P [EP T']]. unfold ps_shrink. rewrite E. cbn [lift obind].
  destruct (clear_ok t1 O1) as [O2 [E2 C2]].
  pose proof (fold_sets (shrink_poly w e s n) (fun p c => sR p w e s n c) (ring_bad (- w) (- e) (- s) (- n) ps \/ INT_MAX < w + e \/ INT_MAX < s + n) ps) as Fd.
  match type of Fd with ?H -> _ => assert (H1 : H) end.
  { intros u p Ip Ou. rewrite Forall_forall in F. exact (shrink_poly_spec w e s n ps p u Hw He Hs Hn Ip (F p Ip) Ou). }
  specialize (Fd H1 (ps_clear t1) O2). destruct (fold_outcome (shrink_poly w e s n) ps (ps_clear t1)) as [t'| |]; [| |exact Fd].
  - destruct Fd as [cs [F2 [O3 [E3 C3]]]]. rewrite Forall_forall in F, T'.
    assert (K : forall X Y, (shrunk w e s n (ps_covers t) X Y /\ ps_count t' X Y = 1) \/ (~ shrunk w e s n (ps_covers t) X Y /\ ps_count t' X Y <= 0)).
    { intros X Y. rewrite C3, C2. cbn [Z.add]. destruct (box_dec (fun a b => b2z (P a b)) 1 (X - w) (X + e) (Y - s) (Y + n)) as [K|[a [b [[Ba Bb] K]]]].
      - left. assert (Pt : forall x y, inbox (X - w) (X + e) (Y - s) (Y + n) x y -> P x y = true) by (intros x y Bxy; specialize (K x y Bxy); cbn beta in K; destruct (P x y); [reflexivity|discriminate]).
        split; [intros a b Ha Hb; apply EP; apply Pt; split; assumption|]. rewrite (zsum2_eq _ (fun p => poly_winding p (X - w) (Y - s)) _ _ X Y F2).
        + destruct (D (X - w) (Y - s)) as [D1 _]. apply D1. apply EP. apply Pt. unfold inbox. lia.
        + intros p c Ip R. exact (shrink_const P p (F p Ip) (T' p Ip) w e s n X Y Hw He Hs Hn c true Pt R).
      - right. assert (Nc : ~ ps_covers t a b) by (intros C; apply EP in C; apply K; rewrite C; reflexivity). split; [intros Sh; apply Nc; apply Sh; assumption|].
        apply (zsum2_le _ _ _ X Y F2). intros p c Ip R. pose proof (F p Ip) as Fp. pose proof (T' p Ip) as Tp.
        assert (Bab : inbox (X - w) (X + e) (Y - s) (Y + n) a b) by (split; assumption). destruct (D a b) as [_ D0].
        pose proof (pw_zero ps a b (fun q Iq => proj2 (proj2 (F q Iq)) a b) (D0 Nc) p Ip) as W0. eapply shrink_le; eassumption. }
    split; [exact O3|]. split; [congruence|]. split; [intros x y; destruct (K x y); lia|]. intros x y. unfold ps_covers at 1. destruct (K x y) as [[K1 K2]|[K1 K2]]; split; intros; try tauto; lia.
  - destruct Fd as [Fd|Fd]; [left|right; exact Fd]. destruct (ring_bad_cells P (- w) (- e) (- s) (- n) ps F T' Fd) as [x [y [Pxy K]]]. apply EP in Pxy. exists x, y. split; [exact Pxy|].
    rewrite Forall_forall in F. destruct (D x y) as [D1 _]. destruct (pw_pos ps x y) as [p [Ip Ep]]; [intros q Iq; apply (F q Iq)|exact (D1 Pxy)|].
    pose proof (poly_cell_int p x y (F p Ip) Ep) as Ic. clear - K Ic Hw He Hs Hn. unfold is_int in *. lia.
Qed.
