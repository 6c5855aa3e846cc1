(* Snap rounding in real geometry: links between hot pixels meet only at their
   ends. *)
From Verif Require Import Base Poly90Spec GeoSpec SnapMove.
From Coq Require Import Reals Lra Psatz.
Local Open Scope R_scope.

(* the half-open unit square of which c is the lower left corner *)
Definition pixel (c : point) (x y : R) : Prop := IZR (px c) <= x < IZR (px c) + 1 /\ IZR (py c) <= y < IZR (py c) + 1.
(* the real points of the segment from u to v *)
Definition ron (u v : point) (x y : R) : Prop := on (IZR (px u)) (IZR (py u)) (IZR (px v)) (IZR (py v)) x y.
Definition is_pt (c : point) (x y : R) : Prop := x = IZR (px c) /\ y = IZR (py c).
Definition rorient (u v w : point) : R := orient (IZR (px u)) (IZR (py u)) (IZR (px v)) (IZR (py v)) (IZR (px w)) (IZR (py w)).
Definition share (u v w z : point) : Prop := u = w \/ u = z \/ v = w \/ v = z.

Lemma pt_eq_r u v : IZR (px u) = IZR (px v) -> IZR (py u) = IZR (py v) -> u = v.
Proof. intros H K. apply eq_IZR in H. apply eq_IZR in K. destruct u, v. cbn in *. congruence. Qed.
Lemma pixel_self c : pixel c (IZR (px c)) (IZR (py c)).
Proof. unfold pixel. lra. Qed.

(* the part of a segment from the point (a, b) in pixel u to the point (a', b') in
   pixel v: it passes no other hot pixel *)
Definition link (hot : point -> Prop) (u v : point) (a b a' b' : R) : Prop :=
  pixel u a b /\ pixel v a' b' /\ hot u /\ hot v /\
  forall c x y, hot c -> on a b a' b' x y -> pixel c x y -> c = u \/ c = v.

(* convex combinations of numbers of [0, 1) *)
Lemma conv p q t : 0 <= p < 1 -> 0 <= q < 1 -> unit t -> 0 <= p + t * (q - p) < 1.
Proof.
  unfold unit. intros P Q T. assert (0 <= (1 - t) * p) by (apply Rmult_le_pos; lra). assert (0 <= t * q) by (apply Rmult_le_pos; lra).
  split; [lra|]. assert (0 <= (1 - t) * (1 - p)) by (apply Rmult_le_pos; lra). assert (0 <= t * (1 - q)) by (apply Rmult_le_pos; lra).
  destruct (Rle_dec t (1 / 2)); [assert (0 < (1 - t) * (1 - p)) by (apply Rmult_lt_0_compat; lra)|assert (0 < t * (1 - q)) by (apply Rmult_lt_0_compat; lra)]; lra.
Qed.
(* a hot point on the link is an end of it *)
Lemma link_hot (hot : point -> Prop) u v a b a' b' c : link hot u v a b a' b' -> hot c -> ron u v (IZR (px c)) (IZR (py c)) -> c = u \/ c = v.
Proof.
  intros [U [V [_ [_ L]]]] H [t [T [E F]]]. unfold pixel in U, V.
  apply (L c (a + t * (a' - a)) (b + t * (b' - b)) H).
  - exists t. auto.
  - assert (X := conv (a - IZR (px u)) (a' - IZR (px v)) t ltac:(lra) ltac:(lra) T).
    assert (Y := conv (b - IZR (py u)) (b' - IZR (py v)) t ltac:(lra) ltac:(lra) T).
    unfold pixel. lra.
Qed.
Lemma moved_pixel c d p l t q q' d1 d2 : (* c + l d = (1-t) (q + l d1) + t (q' + l d2) *)
  unit l -> unit t -> 0 <= d < 1 -> 0 <= d1 < 1 -> 0 <= d2 < 1 ->
  (q + l * d1) + t * ((q' + l * d2) - (q + l * d1)) = c + l * d ->
  p = (q + d1) + t * ((q' + d2) - (q + d1)) -> c <= p < c + 1.
Proof.
  intros L T D D1 D2 E ->. assert (X := conv d1 d2 t D1 D2 T). set (m := d1 + t * (d2 - d1)) in *.
  assert (L' : unit (1 - l)) by (unfold unit in *; lra).
  assert (Y := conv d m (1 - l) D X L').
  replace (q + d1 + t * (q' + d2 - (q + d1))) with (c + (d + (1 - l) * (m - d))); [lra|].
  unfold m. replace (c + l * d) with (c + l * d) in E by ring. assert (E' : c = q + l * d1 + t * (q' + l * d2 - (q + l * d1)) - l * d) by lra. rewrite E'. ring.
Qed.
Section pair.
  Variable hot : point -> Prop.
  Variables u v w z : point.
  Variables a b a' b' c d c' d' : R.
  Hypothesis LU : link hot u v a b a' b'.
  Hypothesis LW : link hot w z c d c' d'.
  (* parts that meet have links that share an end *)
  Hypothesis X : meets a b a' b' c d c' d' -> share u v w z.

  Lemma touched : forall l (L : unit l) q da db, hot q -> 0 <= da < 1 -> 0 <= db < 1 -> forall w z c d c' d', link hot w z c d c' d' ->
    on (IZR (px w) + l * (c - IZR (px w))) (IZR (py w) + l * (d - IZR (py w))) (IZR (px z) + l * (c' - IZR (px z))) (IZR (py z) + l * (d' - IZR (py z)))
       (IZR (px q) + l * da) (IZR (py q) + l * db) -> q = w \/ q = z.
  Proof.
    clear. intros l L q da db H A B w z c d c' d' [W [Z [_ [_ K]]]] [t [T [E F]]]. unfold pixel in W, Z.
    apply (K q (c + t * (c' - c)) (d + t * (d' - d)) H).
    - exists t. auto.
    - split.
      + apply (moved_pixel (IZR (px q)) da _ l t (IZR (px w)) (IZR (px z)) (c - IZR (px w)) (c' - IZR (px z)) L T A); [lra|lra|exact E|ring].
      + apply (moved_pixel (IZR (py q)) db _ l t (IZR (py w)) (IZR (py z)) (d - IZR (py w)) (d' - IZR (py z)) L T B); [lra|lra|exact F|ring].
  Qed.
  (* the links do not cross *)
  Lemma no_crossing : rorient w z u * rorient w z v < 0 -> rorient u v w * rorient u v z < 0 -> False.
  Proof.
    intros P1 P2.
    assert (NS : ~ share u v w z).
    { unfold rorient, orient in P1, P2. intros [E|[E|[E|E]]]; subst; lra. }
    destruct (movement (IZR (px u)) (IZR (py u)) (IZR (px v)) (IZR (py v)) (IZR (px w)) (IZR (py w)) (IZR (px z)) (IZR (py z))
      (a - IZR (px u)) (b - IZR (py u)) (a' - IZR (px v)) (b' - IZR (py v)) (c - IZR (px w)) (d - IZR (py w)) (c' - IZR (px z)) (d' - IZR (py z)) P1 P2) as [M|[l [L M]]].
    - apply NS. apply X.
      replace (IZR (px u) + 1 * (a - IZR (px u))) with a in M by ring. replace (IZR (py u) + 1 * (b - IZR (py u))) with b in M by ring.
      replace (IZR (px v) + 1 * (a' - IZR (px v))) with a' in M by ring. replace (IZR (py v) + 1 * (b' - IZR (py v))) with b' in M by ring.
      replace (IZR (px w) + 1 * (c - IZR (px w))) with c in M by ring. replace (IZR (py w) + 1 * (d - IZR (py w))) with d in M by ring.
      replace (IZR (px z) + 1 * (c' - IZR (px z))) with c' in M by ring. replace (IZR (py z) + 1 * (d' - IZR (py z))) with d' in M by ring.
      exact M.
    - apply NS. pose proof LU as [[U1 U2] [[V1 V2] [HU [HV _]]]]. pose proof LW as [[W1 W2] [[Z1 Z2] [HW [HZ _]]]].
      unfold share. destruct M as [M|[M|[M|M]]].
      + assert (Q := touched l L u (a - IZR (px u)) (b - IZR (py u)) HU ltac:(lra) ltac:(lra) _ _ _ _ _ _ LW M). destruct Q; subst; auto.
      + assert (Q := touched l L v (a' - IZR (px v)) (b' - IZR (py v)) HV ltac:(lra) ltac:(lra) _ _ _ _ _ _ LW M). destruct Q; subst; auto.
      + assert (Q := touched l L w (c - IZR (px w)) (d - IZR (py w)) HW ltac:(lra) ltac:(lra) _ _ _ _ _ _ LU M). destruct Q; subst; auto.
      + assert (Q := touched l L z (c' - IZR (px z)) (d' - IZR (py z)) HZ ltac:(lra) ltac:(lra) _ _ _ _ _ _ LU M). destruct Q; subst; auto.
  Qed.
  (* they meet at common ends only, or they are the same *)
  Lemma meet_ends x y : u <> v -> w <> z -> ron u v x y -> ron w z x y ->
    ((is_pt u x y \/ is_pt v x y) /\ (is_pt w x y \/ is_pt z x y)) \/ (u = w /\ v = z) \/ (u = z /\ v = w).
  Proof.
    intros NU NW U W. pose proof LU as [_ [_ [HU [HV _]]]]. pose proof LW as [_ [_ [HW [HZ _]]]].
    assert (TU : forall q, hot q -> ron u v (IZR (px q)) (IZR (py q)) -> q = u \/ q = v) by (intros q Q; apply (link_hot hot _ _ _ _ _ _ _ LU Q)).
    assert (TW : forall q, hot q -> ron w z (IZR (px q)) (IZR (py q)) -> q = w \/ q = z) by (intros q Q; apply (link_hot hot _ _ _ _ _ _ _ LW Q)).
    (* an end *)
    assert (EU : forall q, hot q -> is_pt q x y -> (is_pt u x y \/ is_pt v x y) /\ (is_pt w x y \/ is_pt z x y)).
    { intros q Q [Qx Qy]. assert (q = u \/ q = v) as QU by (apply TU; [exact Q|rewrite <- Qx, <- Qy; exact U]).
      assert (q = w \/ q = z) as QW by (apply TW; [exact Q|rewrite <- Qx, <- Qy; exact W]).
      split; [destruct QU; subst q; [left|right]|destruct QW; subst q; [left|right]]; split; assumption. }
    pose proof U as [s [S [S1 S2]]]. pose proof W as [t [T [T1 T2]]].
    destruct (Req_dec s 0) as [Z0|Z0]; [left; apply (EU u HU); subst s; split; lra|].
    destruct (Req_dec s 1) as [Z1|Z1]; [left; apply (EU v HV); subst s; split; lra|].
    destruct (Req_dec t 0) as [Z2|Z2]; [left; apply (EU w HW); subst t; split; lra|].
    destruct (Req_dec t 1) as [Z3|Z3]; [left; apply (EU z HZ); subst t; split; lra|].
    unfold unit in S, T. assert (S' : 0 < s < 1) by lra. assert (T' : 0 < t < 1) by lra. right.
    assert (M : meets (IZR (px u)) (IZR (py u)) (IZR (px v)) (IZR (py v)) (IZR (px w)) (IZR (py w)) (IZR (px z)) (IZR (py z))).
    { exists s, t. unfold unit. repeat split; lra. }
    assert (I1 : (1 - s) * rorient w z u + s * rorient w z v = 0).
    { replace ((1 - s) * rorient w z u + s * rorient w z v) with (orient (IZR (px w)) (IZR (py w)) (IZR (px z)) (IZR (py z)) (IZR (px u) + s * (IZR (px v) - IZR (px u))) (IZR (py u) + s * (IZR (py v) - IZR (py u)))) by (unfold rorient, orient; ring).
      rewrite S1, S2, <- T1, <- T2. unfold orient. ring. }
    assert (I2 : (1 - t) * rorient u v w + t * rorient u v z = 0).
    { replace ((1 - t) * rorient u v w + t * rorient u v z) with (orient (IZR (px u)) (IZR (py u)) (IZR (px v)) (IZR (py v)) (IZR (px w) + t * (IZR (px z) - IZR (px w))) (IZR (py w) + t * (IZR (py z) - IZR (py w)))) by (unfold rorient, orient; ring).
      rewrite T1, T2, <- S1, <- S2. unfold orient. ring. }
    destruct (Req_dec (rorient w z u) 0) as [O1|O1].
    2:{ exfalso. apply no_crossing.
      - assert (rorient w z v = - (1 - s) / s * rorient w z u) as -> by (field_simplify_eq; lra).
        replace (rorient w z u * (- (1 - s) / s * rorient w z u)) with (- ((1 - s) / s * (rorient w z u * rorient w z u))) by (field; lra).
        assert (0 < (1 - s) / s) by (apply Rdiv_lt_0_compat; lra). assert (0 < rorient w z u * rorient w z u) by nra.
        assert (0 < (1 - s) / s * (rorient w z u * rorient w z u)) by (apply Rmult_lt_0_compat; lra). lra.
      - assert (O3 : rorient u v w <> 0).
        { intros O3. rewrite O3 in I2. assert (O4 : rorient u v z = 0) by (apply (Rmult_eq_reg_l t); lra).
          assert (D : rorient w z u - rorient w z v = rorient u v z - rorient u v w) by (unfold rorient, orient; ring).
          rewrite O3, O4 in D. assert (rorient w z v = rorient w z u) as E2 by lra. rewrite E2 in I1. lra. }
        assert (rorient u v z = - (1 - t) / t * rorient u v w) as -> by (field_simplify_eq; lra).
        replace (rorient u v w * (- (1 - t) / t * rorient u v w)) with (- ((1 - t) / t * (rorient u v w * rorient u v w))) by (field; lra).
        assert (0 < (1 - t) / t) by (apply Rdiv_lt_0_compat; lra). assert (0 < rorient u v w * rorient u v w) by nra.
        assert (0 < (1 - t) / t * (rorient u v w * rorient u v w)) by (apply Rmult_lt_0_compat; lra). lra. }
    assert (O2 : rorient w z v = 0) by (rewrite O1 in I1; apply (Rmult_eq_reg_l s); lra).
    (* on one line *)
    assert (NW' : IZR (px w) <> IZR (px z) \/ IZR (py w) <> IZR (py z)).
    { destruct (Req_dec (IZR (px w)) (IZR (px z))); [|left; assumption]. destruct (Req_dec (IZR (py w)) (IZR (py z))); [|right; assumption]. exfalso. apply NW. apply pt_eq_r; assumption. }
    destruct (on_line_r _ _ _ _ _ _ NW' O1) as [g [G1 G2]]. destruct (on_line_r _ _ _ _ _ _ NW' O2) as [h [H1 H2]].
    assert (ET : t = g + s * (h - g)).
    { rewrite G1, H1 in S1. rewrite G2, H2 in S2. destruct NW' as [N|N].
      - apply (Rmult_eq_reg_r (IZR (px z) - IZR (px w))); [|lra]. lra.
      - apply (Rmult_eq_reg_r (IZR (py z) - IZR (py w))); [|lra]. lra. }
    assert (GU : unit g -> u = w \/ u = z) by (intros UG; apply TW; [exact HU|]; exists g; split; [exact UG|]; lra).
    assert (HV' : unit h -> v = w \/ v = z) by (intros UG; apply TW; [exact HV|]; exists h; split; [exact UG|]; lra).
    (* parameters of the ends *)
    assert (G01 : g <> h) by (intros E; subst h; apply NU; apply pt_eq_r; lra).
    assert (PW : unit (- g / (h - g)) -> w = u \/ w = v).
    { intros UG. apply TU; [exact HW|]. exists (- g / (h - g)). split; [exact UG|]. rewrite G1, H1, G2, H2. split; field; lra. }
    assert (PZ : unit ((1 - g) / (h - g)) -> z = u \/ z = v).
    { intros UG. apply TU; [exact HZ|]. exists ((1 - g) / (h - g)). split; [exact UG|]. rewrite G1, H1, G2, H2. split; field; lra. }
    assert (EG : forall q r k, (q = u /\ r = g) \/ (q = v /\ r = h) -> q = w /\ k = 0 \/ q = z /\ k = 1 -> r = k).
    { intros q r k Q K. assert (Q1 : IZR (px q) = IZR (px w) + r * (IZR (px z) - IZR (px w)) /\ IZR (py q) = IZR (py w) + r * (IZR (py z) - IZR (py w))) by (destruct Q as [[-> ->]|[-> ->]]; split; assumption).
      assert (Q2 : IZR (px q) = IZR (px w) + k * (IZR (px z) - IZR (px w)) /\ IZR (py q) = IZR (py w) + k * (IZR (py z) - IZR (py w))) by (destruct K as [[-> ->]|[-> ->]]; split; ring).
      destruct NW' as [N|N]; [apply (Rmult_eq_reg_r (IZR (px z) - IZR (px w)))|apply (Rmult_eq_reg_r (IZR (py z) - IZR (py w)))]; lra. }
    assert (G' : g = 0 \/ g = 1 \/ g < 0 \/ 1 < g).
    { destruct (Rle_dec 0 g) as [A1|A1]; [destruct (Rle_dec g 1) as [B1|B1]|]; [|right; right; lra|right; right; lra].
      destruct (GU (conj A1 B1)) as [E|E]; [left; apply (EG u); auto|right; left; apply (EG u); auto]. }
    assert (H' : h = 0 \/ h = 1 \/ h < 0 \/ 1 < h).
    { destruct (Rle_dec 0 h) as [A1|A1]; [destruct (Rle_dec h 1) as [B1|B1]|]; [|right; right; lra|right; right; lra].
      destruct (HV' (conj A1 B1)) as [E|E]; [left; apply (EG v); auto|right; left; apply (EG v); auto]. }
    (* w and z are no inner points of the segment uv *)
    assert (IN : forall k, unit ((k - g) / (h - g)) <-> (g <= k <= h \/ h <= k <= g)).
    { intros k. unfold unit. destruct (Rlt_dec g h) as [L|L].
      - split.
        + intros [A1 B1]. left. split; apply (Rmult_le_reg_r (/ (h - g))); try (apply Rinv_0_lt_compat; lra); unfold Rdiv in *.
          * apply (Rplus_le_reg_r (- (g * / (h - g)))). lra.
          * assert (E1 : (h - g) * / (h - g) = 1) by (apply Rinv_r; lra). lra.
        + intros [[A1 B1]|[A1 B1]]; [|lra]. split; apply (Rmult_le_reg_r (h - g)); try lra; unfold Rdiv; rewrite ?Rmult_assoc, ?Rinv_l by lra; lra.
      - split.
        + intros [A1 B1]. right. replace ((k - g) / (h - g)) with ((g - k) * / (g - h)) in A1, B1 by (field; lra).
          assert (IP : 0 < / (g - h)) by (apply Rinv_0_lt_compat; lra). assert (E1 : (g - h) * / (g - h) = 1) by (apply Rinv_r; lra).
          split; apply (Rmult_le_reg_r (/ (g - h))); try exact IP; lra.
        + intros [[A1 B1]|[A1 B1]]; [lra|]. replace ((k - g) / (h - g)) with ((g - k) / (g - h)) by (field; lra).
          split; apply (Rmult_le_reg_r (g - h)); try lra; unfold Rdiv; rewrite ?Rmult_assoc, ?Rinv_l by lra; lra. }
    assert (W' : (g <= 0 <= h \/ h <= 0 <= g) -> g = 0 \/ h = 0).
    { intros K. apply IN in K. replace ((0 - g) / (h - g)) with (- g / (h - g)) in K by (field; lra).
      destruct (PW K) as [E|E]; [left; apply (EG u); auto|right; apply (EG v); auto]. }
    assert (Z' : (g <= 1 <= h \/ h <= 1 <= g) -> g = 1 \/ h = 1).
    { intros K. apply IN in K. destruct (PZ K) as [E|E]; [left; apply (EG u); auto|right; apply (EG v); auto]. }
    assert (B : g < t < h \/ h < t < g).
    { rewrite ET. destruct (Rlt_dec g h) as [L|L].
      - left. assert (0 < s * (h - g)) by (apply Rmult_lt_0_compat; lra). assert (0 < (1 - s) * (h - g)) by (apply Rmult_lt_0_compat; lra). lra.
      - right. assert (0 < s * (g - h)) by (apply Rmult_lt_0_compat; lra). assert (0 < (1 - s) * (g - h)) by (apply Rmult_lt_0_compat; lra). lra. }
    assert (R : (g = 0 /\ h = 1) \/ (g = 1 /\ h = 0)).
    { destruct G' as [G'|[G'|[G'|G']]], H' as [H'|[H'|[H'|H']]];
      first [left; split; lra|right; split; lra|exfalso; lra|exfalso; destruct (Z' ltac:(lra)); lra|exfalso; destruct (W' ltac:(lra)); lra]. }
    destruct R as [[R1 R2]|[R1 R2]]; rewrite R1 in G1, G2; rewrite R2 in H1, H2; [left|right]; split; apply pt_eq_r; lra.
  Qed.
End pair.
