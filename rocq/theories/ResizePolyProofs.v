(* bloat, shrink and resize of Manhattan polygon sets. *)
From Verif Require Import Base Units Outcome Scan90Spec VertexLemmas Poly90Spec PolySpec Poly90Model Poly90Proofs PolyCycle Poly90Vertices Poly90Contains
  Set90Spec Set90Model Set90Lemmas Set90Proofs PolyFormModel PolyFormLemmas PolyFormSpec PolyFormRead PolyFormColumns PolyFormCor PolyFormTight
  PolyFormGood RingWins BoxEuler RingEuler RingEscape RingGrow ResizeSpec ResizePolyModel ColinearProofs ResizePolyLemmas.
From Coq Require Import Arith.

(* ---------- rings ---------- *)
Fixpoint pairs (l : list Z) : list (Z * Z) := match l with x :: y :: l' => (x, y) :: pairs l' | _ => [] end.
Lemma pairs_flat cs : pairs (flat cs) = cs.
Proof. induction cs as [|[x y] cs IH]; [reflexivity|]. change (flat ((x, y) :: cs)) with (x :: y :: flat cs). cbn [pairs]. rewrite IH. reflexivity. Qed.
Lemma flat_pairs l : Nat.Even (length l) -> flat (pairs l) = l.
Proof. intros [n E]. destruct (even_flat n l E) as [cs [-> _]]. rewrite pairs_flat. reflexivity. Qed.
Lemma strict_flat r : strict_ring r -> flat (pairs r) = r.
Proof. intros S. apply flat_pairs. apply S. Qed.
Lemma flat_rectilinear cs : rectilinear (ring_points (flat cs)).
Proof.
  unfold rectilinear. rewrite wins_edges. apply Forall_flat_map. apply Forall_forall. intros u _. unfold hor, ver, axis_edge. constructor; [right; reflexivity|]. constructor; [left; reflexivity|constructor].
Qed.
Lemma strict_nzw r : strict_ring r -> Forall nzw (wins (pairs r)).
Proof.
  intros S. pose proof (strict_flat r S) as E. assert (Hz : no_zero_edge (ring_points (flat (pairs r)))) by (rewrite E; apply S). apply Forall_forall. intros u I.
  destruct (win_neq (pairs r) Hz u I) as [A B]. pose proof (win_neq_z (pairs r) Hz u I) as C. split; [exact A|]. split; assumption.
Qed.
(* the ring with every edge moved *)
Definition mv (w e s n : Z) (r : list Z) (x y : Z) : Z := winding_number (ring_points (flat (moved (up_x w e) (up_y s n) (pairs r)))) x y.
(* the extents *)
Definition dlt (f : point -> Z) (r : list Z) : Z := match ring_points r with p0 :: t => xs_delta f p0 t | [] => 0 end.

Lemma strict_points r : strict_ring r -> exists p0 p1 t, ring_points r = p0 :: p1 :: t.
Proof.
  intros S. assert (L : (4 <= length (ring_points r))%nat).
  { rewrite <- (strict_flat r S). destruct S as [_ [_ [L _]]]. rewrite wins_points.
    assert (G : forall l : list win, length (flat_map (fun w => [mk_pt (wa w) (wb w); mk_pt (wc w) (wb w)]) l) = (2 * length l)%nat) by (induction l as [|u l IH]; [reflexivity|]; cbn [flat_map app length]; rewrite IH; lia).
    rewrite G. assert (H : length (wins (pairs r)) = length (pairs r)).
    { destruct (pairs r) as [|q rest]; [reflexivity|]. cbn [wins length]. generalize (snd (last rest q)). generalize q at 2. revert q. induction rest as [|r2 rest IH]; intros q f z; [reflexivity|]. cbn [wins_go length]. rewrite IH. reflexivity. }
    rewrite H. assert (K : forall k l, (length l <= k)%nat -> (length l <= 2 * length (pairs l) + 1)%nat).
    { induction k as [|k IH]; intros [|x [|y l]] Hk; cbn [length pairs] in *; try lia. specialize (IH l ltac:(lia)). lia. }
    specialize (K _ r (le_n _)). lia. }
  destruct (ring_points r) as [|p0 [|p1 t]]; cbn [length] in L; [lia|lia|eauto].
Qed.
Lemma ring_ctp r : strict_ring r -> compact_to_points r = ring_points r.
Proof. intros S. apply ctp_ring_points; apply S. Qed.

Lemma red_curve (l : list point) (I : Forall is_pt l) (l' : list point) : red l l' -> rectilinear l -> (length l' < 4)%nat \/ (exists o, alternates o l') /\ no_zero_edge l' ->
  forall o, exists V, curve_vertices o l' = Ok V /\ good o V (winding_number l).
Proof.
  intros [D1 D2 D3 D4] R C o. destruct (curve_red o l') as [V [E G]].
  - destruct C as [C|C]; [left; split; [exact C|exact (D2 R)]|right; exact C].
  - rewrite Forall_forall in *. intros p Hp. apply I, D3. exact Hp.
  - exists V. split; [exact E|]. eapply good_ext; [exact G|]. exact D1.
Qed.
Lemma resize_up_spec w e s n r : strict_ring r ->
  match resize_poly_up w e s n (compact_to_points r) with
  | Ok l => forall o, exists V, curve_vertices o l = Ok V /\ good o V (mv w e s n r)
  | Overflow => Exists (bad w e s n) (wins (pairs r))
  | Undefined => False
  end.
Proof.
  intros S. rewrite (ring_ctp r S). destruct (strict_points r S) as [p0 [p1 [t E]]]. rewrite E. unfold resize_poly_up.
  assert (E' : ring_points (flat (pairs r)) = p0 :: p1 :: t) by (rewrite (strict_flat r S); exact E).
  pose proof (rzo_ring w e s n (pairs r) p0 (p1 :: t) (strict_nzw r S) E') as K. rewrite last_cons', <- mod_all_rzo in K.
  destruct (mod_loop w e s n p0 p1 t) as [x| |]; cbn [obind] in *; [|exact K|exact K]. destruct (mod_ends w e s n p0 p1 x) as [l| |]; cbn [obind]; [|exact K|exact K].
  destruct K as [-> I]. destruct (remove_colinear_spec _ (flat_rectilinear (moved (up_x w e) (up_y s n) (pairs r)))) as [l' [-> [Rd C]]].
  exact (red_curve _ I l' Rd (flat_rectilinear _) C).
Qed.
Lemma resize_down_spec w e s n r : strict_ring r ->
  match resize_poly_down w e s n (compact_to_points r) with
  | Ok (Some l) => (Z.abs (w + e) <= dlt px r /\ Z.abs (n + s) <= dlt py r) /\ forall o, exists V, curve_vertices o l = Ok V /\ good o V (mv w e s n r)
  | Ok None => dlt px r < Z.abs (w + e) \/ dlt py r < Z.abs (n + s) \/
      (Z.abs (w + e) <= dlt px r /\ Z.abs (n + s) <= dlt py r /\ forall x y, mv w e s n r x y = 0)
  | Overflow => Exists (bad w e s n) (wins (pairs r)) \/ ~ is_int (w + e) \/ ~ is_int (Z.abs (w + e)) \/ ~ is_int (n + s) \/ ~ is_int (Z.abs (n + s))
  | Undefined => False
  end.
Proof.
  intros S. rewrite (ring_ctp r S). destruct (strict_points r S) as [p0 [p1 [t E]]]. unfold dlt. rewrite E. unfold resize_poly_down.
  assert (E' : ring_points (flat (pairs r)) = p0 :: p1 :: t) by (rewrite (strict_flat r S); exact E).
  pose proof (rzo_ring w e s n (pairs r) p0 (p1 :: t) (strict_nzw r S) E') as K. rewrite last_cons', <- mod_all_rzo in K.
  destruct (mod_loop w e s n p0 p1 t) as [x| |]; cbn [obind] in *; [|left; exact K|exact K].
  destruct (chk_cases (w + e)) as [[-> _]|[-> N]]; cbn [obind]; [|tauto]. destruct (chk_cases (Z.abs (w + e))) as [[-> _]|[-> N]]; cbn [obind]; [|tauto].
  destruct (Z.ltb_spec (xs_delta px p0 (p1 :: t)) (Z.abs (w + e))) as [C1|C1]; [left; exact C1|].
  destruct (chk_cases (n + s)) as [[-> _]|[-> N]]; cbn [obind]; [|tauto]. destruct (chk_cases (Z.abs (n + s))) as [[-> _]|[-> N]]; cbn [obind]; [|tauto].
  destruct (Z.ltb_spec (xs_delta py p0 (p1 :: t)) (Z.abs (n + s))) as [C2|C2]; [right; left; exact C2|].
  destruct (mod_ends w e s n p0 p1 x) as [l| |]; cbn [obind]; [|left; exact K|exact K].
  destruct K as [-> I]. destruct (remove_colinear_spec _ (flat_rectilinear (moved (up_x w e) (up_y s n) (pairs r)))) as [l' [-> [Rd C]]]. cbn [obind].
  destruct (Nat.leb_spec 4 (length l')) as [C4|C4].
  - split; [split; assumption|]. exact (red_curve _ I l' Rd (flat_rectilinear _) C).
  - right. right. split; [exact C1|]. split; [exact C2|]. intros u v. unfold mv. destruct Rd as [D1 D2 _ _]. rewrite <- D1. apply short_winding; [exact C4|]. apply D2. apply flat_rectilinear.
Qed.

(* ---------- extents ---------- *)
Lemma fold_max (f : point -> Z) l : forall m, let M := fold_left (fun m p => Z.max m (f p)) l m in m <= M /\ (forall p, In p l -> f p <= M) /\ (M = m \/ exists p, In p l /\ f p = M).
Proof.
  induction l as [|a l IH]; intros m; cbn [fold_left].
  - split; [lia|]. split; [intros p []|left; reflexivity].
  - cbv zeta. specialize (IH (Z.max m (f a))). cbv zeta in IH. destruct IH as [I1 [I2 I3]]. split; [lia|]. split; [intros p [<-|Hp]; [lia|exact (I2 p Hp)]|].
    destruct I3 as [I3|[p [Hp I3]]]; [|right; exists p; split; [right; exact Hp|exact I3]]. destruct (Z.max_spec m (f a)) as [[_ Q]|[_ Q]]; rewrite Q in *; [right; exists a; split; [left; reflexivity|symmetry; exact I3]|left; exact I3].
Qed.
Lemma fold_min (f : point -> Z) l : forall m, let M := fold_left (fun m p => Z.min m (f p)) l m in M <= m /\ (forall p, In p l -> M <= f p) /\ (M = m \/ exists p, In p l /\ f p = M).
Proof.
  induction l as [|a l IH]; intros m; cbn [fold_left].
  - split; [lia|]. split; [intros p []|left; reflexivity].
  - cbv zeta. specialize (IH (Z.min m (f a))). cbv zeta in IH. destruct IH as [I1 [I2 I3]]. split; [lia|]. split; [intros p [<-|Hp]; [lia|exact (I2 p Hp)]|].
    destruct I3 as [I3|[p [Hp I3]]]; [|right; exists p; split; [right; exact Hp|exact I3]]. destruct (Z.min_spec m (f a)) as [[_ Q]|[_ Q]]; rewrite Q in *; [left; exact I3|right; exists a; split; [left; reflexivity|symmetry; exact I3]].
Qed.
Lemma dlt_spec f r : strict_ring r -> exists p q, In p (ring_points r) /\ In q (ring_points r) /\ (forall u, In u (ring_points r) -> f p <= f u <= f q) /\ dlt f r = f q - f p.
Proof.
  intros S. destruct (strict_points r S) as [p0 [p1 [t E]]]. unfold dlt. rewrite E. set (l := p1 :: t). unfold xs_delta.
  destruct (fold_max f l (f p0)) as [A1 [A2 A3]]. destruct (fold_min f l (f p0)) as [B1 [B2 B3]].
  set (M := fold_left (fun m p => Z.max m (f p)) l (f p0)) in *. set (m := fold_left (fun m p => Z.min m (f p)) l (f p0)) in *.
  assert (Q : exists q, In q (p0 :: l) /\ f q = M) by (destruct A3 as [A3|[q [Hq A3]]]; [exists p0; split; [left; reflexivity|lia]|exists q; split; [right; exact Hq|exact A3]]).
  assert (Pm : exists p, In p (p0 :: l) /\ f p = m) by (destruct B3 as [B3|[q [Hq B3]]]; [exists p0; split; [left; reflexivity|lia]|exists q; split; [right; exact Hq|exact B3]]).
  destruct Q as [q [Hq Eq]], Pm as [p [Hp Ep]]. exists p, q. split; [exact Hp|]. split; [exact Hq|]. split; [|lia].
  intros u [<-|Hu]; [lia|]. specialize (A2 u Hu). specialize (B2 u Hu). lia.
Qed.
Lemma point_win cs p : In p (ring_points (flat cs)) -> exists u, In u (wins cs) /\ wa u = px p.
Proof.
  rewrite wins_points. rewrite in_flat_map. intros [u [Iu [<-|[<-|[]]]]]; cbn [px].
  - exists u. split; [exact Iu|reflexivity].
  - destruct (wins_pairs (fun _ a _ => a =? wc u) cs u Iu) as [v [Iv Ev]]; [apply Z.eqb_refl|]. exists v. split; [exact Iv|lia].
Qed.
Lemma win_point cs u : In u (wins cs) -> exists p, In p (ring_points (flat cs)) /\ px p = wa u.
Proof. intros I. exists (mk_pt (wa u) (wb u)). split; [|reflexivity]. rewrite wins_points, in_flat_map. exists u. split; [exact I|left; reflexivity]. Qed.
Lemma dlt_wide r d : strict_ring r -> d <= dlt px r -> wide (pairs r) d.
Proof.
  intros S D. destruct (dlt_spec px r S) as [p [q [Hp [Hq [B E]]]]]. rewrite <- (strict_flat r S) in Hp, Hq, B. destruct (point_win _ p Hp) as [u [Iu Eu]]. destruct (point_win _ q Hq) as [v [Iv Ev]].
  exists u, v. split; [exact Iu|]. split; [exact Iv|]. split; [|lia]. intros w Iw. destruct (win_point _ w Iw) as [z [Hz Ez]]. specialize (B z Hz). lia.
Qed.
Lemma ring_rect r : strict_ring r -> rectilinear (ring_points r).
Proof. intros S. rewrite <- (strict_flat r S). apply flat_rectilinear. Qed.
(* a box of d + 1 columns does not fit *)
Lemma narrow_x r d X Y : strict_ring r -> dlt px r < d -> winding_number (ring_points r) X Y <> 0 -> winding_number (ring_points r) (X + d) Y = 0.
Proof.
  intros S D N. destruct (dlt_spec px r S) as [p [q [Hp [Hq [B E]]]]]. destruct (strict_box r S) as [k Bk].
  assert (G : forall i, winding_number (ring_points r) i Y <> 0 -> px p <= i < px q).
  { intros i Ni. destruct (Z_le_dec (px p) i) as [C1|C1]; [destruct (Z_lt_dec i (px q)) as [C2|C2]; [lia|]|]; exfalso; apply Ni;
      (apply (winding_outside (px p) (Z.to_nat (px q - px p)) INT_MIN k); [exact (ring_rect r S)| |pose proof (B p Hp); lia]);
      apply Forall_forall; intros u Hu; rewrite Forall_forall in Bk; specialize (Bk u Hu); specialize (B u Hu); unfold inside_box in *; lia. }
  destruct (Z.eq_dec (winding_number (ring_points r) (X + d) Y) 0) as [Z0|Z0]; [exact Z0|exfalso]. specialize (G X N) as G1. specialize (G _ Z0) as G2. lia.
Qed.
Lemma narrow_y r d X Y : strict_ring r -> dlt py r < d -> winding_number (ring_points r) X Y <> 0 -> winding_number (ring_points r) X (Y + d) = 0.
Proof.
  intros S D N. destruct (dlt_spec py r S) as [p [q [Hp [Hq [B E]]]]]. destruct (strict_box r S) as [k Bk].
  assert (G : forall i, winding_number (ring_points r) X i <> 0 -> py p <= i < py q).
  { intros i Ni. destruct (Z_le_dec (py p) i) as [C1|C1]; [destruct (Z_lt_dec i (py q)) as [C2|C2]; [lia|]|]; exfalso; apply Ni;
      (apply (winding_outside INT_MIN k (py p) (Z.to_nat (py q - py p))); [exact (ring_rect r S)| |pose proof (B p Hp); lia]);
      apply Forall_forall; intros u Hu; rewrite Forall_forall in Bk; specialize (Bk u Hu); specialize (B u Hu); unfold inside_box in *; lia. }
  destruct (Z.eq_dec (winding_number (ring_points r) X (Y + d)) 0) as [Z0|Z0]; [exact Z0|exfalso]. specialize (G Y N) as G1. specialize (G _ Z0) as G2. lia.
Qed.

(* ---------- a ring of the region ---------- *)
Definition rwn (r : list Z) (x y : Z) : Z := winding_number (ring_points r) x y.
Lemma gring_wok P r : strict_ring r -> gring P true true r -> Forall (wok P) (wins (pairs r)).
Proof. intros S G. destruct (gring_flat P r G S) as [cs [-> [_ F]]]. rewrite pairs_flat. exact F. Qed.
(* constant on a box *)
Lemma const_h P r : strict_ring r -> gring P true true r -> forall k x y v, (forall i, x <= i <= x + Z.of_nat k -> P i y = v) -> rwn r (x + Z.of_nat k) y = rwn r x y.
Proof.
  intros S G. pose proof (gring_wok P r S G) as W. assert (H : forall x y, P x y = P (x - 1) y -> rwn r x y = rwn r (x - 1) y).
  { intros x y E. unfold rwn. pose proof (wn_same_h P (pairs r) W) as K. rewrite (strict_flat r S) in K. apply K. exact E. }
  induction k as [|k IH]; intros x y v C; [rewrite Z.add_0_r; reflexivity|]. rewrite (H (x + Z.of_nat (Datatypes.S k)) y).
  - replace (x + Z.of_nat (Datatypes.S k) - 1) with (x + Z.of_nat k) by lia. apply (IH x y v). intros i Hi. apply C. lia.
  - rewrite (C (x + Z.of_nat (Datatypes.S k))), (C (x + Z.of_nat (Datatypes.S k) - 1)) by lia. reflexivity.
Qed.
Lemma const_v P r : strict_ring r -> gring P true true r -> forall k x y v, (forall i, y <= i <= y + Z.of_nat k -> P x i = v) -> rwn r x (y + Z.of_nat k) = rwn r x y.
Proof.
  intros S G. pose proof (gring_wok P r S G) as W. assert (H : forall x y, P x y = P x (y - 1) -> rwn r x y = rwn r x (y - 1)).
  { intros x y E. unfold rwn. pose proof (wn_same_v P (pairs r) W) as K. rewrite (strict_flat r S) in K. apply K. exact E. }
  induction k as [|k IH]; intros x y v C; [rewrite Z.add_0_r; reflexivity|]. rewrite (H x (y + Z.of_nat (Datatypes.S k))).
  - replace (y + Z.of_nat (Datatypes.S k) - 1) with (y + Z.of_nat k) by lia. apply (IH x y v). intros i Hi. apply C. lia.
  - rewrite (C (y + Z.of_nat (Datatypes.S k))), (C (y + Z.of_nat (Datatypes.S k) - 1)) by lia. reflexivity.
Qed.
Lemma const_box P r x0 x1 y0 y1 v : strict_ring r -> gring P true true r -> (forall x y, x0 <= x <= x1 -> y0 <= y <= y1 -> P x y = v) ->
  forall x y, x0 <= x <= x1 -> y0 <= y <= y1 -> rwn r x y = rwn r x0 y0.
Proof.
  intros S G C x y Hx Hy. transitivity (rwn r x0 y).
  - pose proof (const_h P r S G (Z.to_nat (x - x0)) x0 y v) as K. replace (x0 + Z.of_nat (Z.to_nat (x - x0))) with x in K by lia. apply K. intros i Hi. apply C; lia.
  - pose proof (const_v P r S G (Z.to_nat (y - y0)) x0 y0 v) as K. replace (y0 + Z.of_nat (Z.to_nat (y - y0))) with y in K by lia. apply K. intros i Hi. apply C; lia.
Qed.

Section Ring.
Variables (P : Z -> Z -> bool) (r : list Z) (c0 : Z).
Hypothesis S : strict_ring r.
Hypothesis G : gring P true true r.
Hypothesis Hv : forall x y, rwn r x y = - c0 \/ rwn r x y = 1 - c0.
Variables (w e s n X Y : Z).
Hypothesis Hx : 0 <= w + e.
Hypothesis Hy : 0 <= s + n.
Let Hw : Forall (wok P) (wins (pairs r)) := gring_wok P r S G.
Lemma ring_hz : no_zero_edge (ring_points (flat (pairs r))).
Proof. rewrite (strict_flat r S). apply S. Qed.
Lemma ring_hv : forall x y, winding_number (ring_points (flat (pairs r))) x y = - c0 \/ winding_number (ring_points (flat (pairs r))) x y = 1 - c0.
Proof. rewrite (strict_flat r S). exact Hv. Qed.
Lemma mv_dn x y : mv (- w) (- e) (- s) (- n) r x y = winding_number (ring_points (flat (moved (dn_x w e) (dn_y s n) (pairs r)))) x y.
Proof.
  unfold mv. rewrite !moved_winding. apply PolyCycle.zsum_ext. intros u _. unfold up_x, up_y, dn_x, dn_y.
  destruct (wz u <? wb u), (wa u <? wc u), (wb u <? wd u); do 2 f_equal; f_equal; lia.
Qed.
Lemma mv_up_all v : (forall x y, X - e <= x <= X + w -> Y - n <= y <= Y + s -> rwn r x y = v) -> mv w e s n r X Y = v.
Proof. intros C. apply (up_all P (pairs r) c0 Hw ring_hz ring_hv w e s n X Y Hx Hy v). rewrite (strict_flat r S). exact C. Qed.
Lemma mv_up_some x y : c0 = 0 \/ (c0 = 1 /\ w + e <= dlt px r) -> X - e <= x <= X + w -> Y - n <= y <= Y + s -> rwn r x y = 1 - c0 -> 1 - c0 <= mv w e s n r X Y.
Proof.
  intros C Bx By E. apply (up_some P (pairs r) c0 Hw ring_hz ring_hv w e s n X Y Hx Hy x y); try assumption.
  - destruct C as [C|[C1 C2]]; [left; exact C|right; split; [exact C1|apply dlt_wide; assumption]].
  - rewrite (strict_flat r S). exact E.
Qed.
Lemma mv_dn_all v : (forall x y, X - w <= x <= X + e -> Y - s <= y <= Y + n -> rwn r x y = v) -> mv (- w) (- e) (- s) (- n) r X Y = v.
Proof. intros C. rewrite mv_dn. apply (dn_all P (pairs r) c0 Hw ring_hz ring_hv w e s n X Y Hx Hy v). rewrite (strict_flat r S). exact C. Qed.
Lemma mv_dn_some x y : c0 = 1 \/ (c0 = 0 /\ w + e <= dlt px r) -> X - w <= x <= X + e -> Y - s <= y <= Y + n -> rwn r x y = - c0 -> mv (- w) (- e) (- s) (- n) r X Y <= - c0.
Proof.
  intros C Bx By E. rewrite mv_dn. apply (dn_some P (pairs r) c0 Hw ring_hz ring_hv w e s n X Y Hx Hy x y); try assumption.
  - destruct C as [C|[C1 C2]]; [left; exact C|right; split; [exact C1|apply dlt_wide; assumption]].
  - rewrite (strict_flat r S). exact E.
Qed.
End Ring.
