(* resize of Manhattan polygon sets. *)
From Verif Require Import Base Units Outcome Scan90Spec VertexLemmas Poly90Spec Set90Spec Set90Model Set90Lemmas Set90Proofs Set90Cor
  ResizeSpec ResizePolyModel ResizePolyTotals.
From Coq Require Import Arith.

Lemma covers_moved dx dy s s' : ps_orient s' = ps_orient s -> (forall x y, wind (ps_orient s) (ps_data s') x y = wind (ps_orient s) (ps_data s) (x - dx) (y - dy)) ->
  forall x y, ps_covers s' x y <-> ps_covers s (x - dx) (y - dy).
Proof. intros E W x y. unfold ps_covers, ps_count. rewrite E, W. reflexivity. Qed.
Lemma grown_iff w e s n (P Q : Z -> Z -> Prop) : (forall x y, P x y <-> Q x y) -> forall x y, grown w e s n P x y <-> grown w e s n Q x y.
Proof. intros E x y. unfold grown. split; intros [a [b [H K]]]; exists a, b; (split; [apply E; exact H|exact K]). Qed.
Lemma shrunk_iff w e s n (P Q : Z -> Z -> Prop) : (forall x y, P x y <-> Q x y) -> forall x y, shrunk w e s n P x y <-> shrunk w e s n Q x y.
Proof. intros E x y. unfold shrunk. split; intros H a b Ha Hb; apply E; apply H; assumption. Qed.
Lemma grown_shift w e s n e' n' (P : Z -> Z -> Prop) x y : e' = w + e -> n' = s + n -> grown 0 e' 0 n' (fun x y => P (x - - w) (y - - s)) x y <-> grown w e s n P x y.
Proof.
  intros -> ->. unfold grown. split.
  - intros [a [b [H K]]]. exists (a - - w), (b - - s). split; [exact H|lia].
  - intros [a [b [H K]]]. exists (a - w), (b - s). split; [|lia]. replace (a - w - - w) with a by lia. replace (b - s - - s) with b by lia. exact H.
Qed.
Lemma shrunk_shift w e s n e' n' (P : Z -> Z -> Prop) x y : e' = - (w + e) -> n' = - (s + n) -> shrunk 0 e' 0 n' (fun x y => P (x - - w) (y - - s)) x y <-> shrunk (- w) (- e) (- s) (- n) P x y.
Proof.
  intros -> ->. unfold shrunk. split.
  - intros H a b Ha Hb. specialize (H (a - w) (b - s) ltac:(lia) ltac:(lia)). replace (a - w - - w) with a in H by lia. replace (b - s - - s) with b in H by lia. exact H.
  - intros H a b Ha Hb. apply H; lia.
Qed.
Lemma resize_spec w e s n t : ps_ok t ->
  match ps_resize w e s n t with
  | Ok t' => ps_ok t' /\ ps_orient t' = ps_orient t /\ forall x y, ps_covers t' x y <-> resized w e s n (ps_covers t) x y
  | Overflow => True
  | Undefined => False
  end.
Proof.
  intros O. unfold ps_resize, resized. destruct (chk (- w)) as [dx| |] eqn:E1; cbn [obind]; [|exact I|unfold chk in E1; destruct (_ && _); discriminate]. apply chk_ok in E1 as [-> I1].
  destruct (chk (- s)) as [dy| |] eqn:E2; cbn [obind]; [|exact I|unfold chk in E2; destruct (_ && _); discriminate]. apply chk_ok in E2 as [-> I2].
  pose proof (ps_move_spec (- w) (- s) t O) as M. destruct (ps_move (- w) (- s) t) as [t1| |]; cbn [obind]; [|exact I|exact M]. destruct M as [O1 [Eo W]].
  pose proof (covers_moved (- w) (- s) t t1 Eo W) as C1. clear W.
  destruct (chk (w + e)) as [et| |] eqn:E3; cbn [obind]; [|exact I|unfold chk in E3; destruct (_ && _); discriminate]. apply chk_ok in E3 as [-> I3].
  destruct (chk (s + n)) as [nt| |] eqn:E4; cbn [obind]; [|exact I|unfold chk in E4; destruct (_ && _); discriminate]. apply chk_ok in E4 as [-> I4].
  assert (Ck : forall z, chk z <> Undefined) by (intros z; unfold chk; destruct (_ && _); discriminate).
  destruct (Z.ltb_spec (w + e) 0) as [A1|A1], (Z.ltb_spec (s + n) 0) as [A2|A2]; cbn [xorb].
  - replace (0 <=? w + e) with false by lia. replace (0 <=? s + n) with false by lia.
    destruct (chk (- (w + e))) as [m| |] eqn:E5; cbn [obind]; [|exact I|exact (Ck _ E5)]. apply chk_ok in E5 as [-> _]. destruct (chk (- (s + n))) as [k| |] eqn:E6; cbn [obind]; [|exact I|exact (Ck _ E6)]. apply chk_ok in E6 as [-> _].
    pose proof (shrink_spec 0 (- (w + e)) 0 (- (s + n)) t1 ltac:(lia) ltac:(lia) ltac:(lia) ltac:(lia) O1) as S. destruct (ps_shrink _ _ _ _ t1) as [t2| |]; [|exact I|exact S]. destruct S as [O2 [Eo2 [_ C2]]].
    split; [exact O2|]. split; [congruence|]. intros x y. rewrite C2, (shrunk_iff _ _ _ _ _ _ C1). apply shrunk_shift; reflexivity.
  - replace (0 <=? w + e) with false by lia. replace (0 <=? s + n) with true by lia.
    destruct (chk (- (w + e))) as [m| |] eqn:E5; cbn [obind]; [|exact I|exact (Ck _ E5)]. apply chk_ok in E5 as [-> _].
    pose proof (shrink_spec 0 (- (w + e)) 0 0 t1 ltac:(lia) ltac:(lia) ltac:(lia) ltac:(lia) O1) as S. destruct (ps_shrink _ _ _ _ t1) as [t2| |]; cbn [obind]; [|exact I|exact S]. destruct S as [O2 [Eo2 [_ C2]]].
    assert (C3 : forall x y, ps_covers t2 x y <-> shrunk (- w) (- e) 0 0 (ps_covers t) x (y + s)).
    { intros x y. rewrite C2. unfold shrunk. split.
      - intros H a b Ha Hb. specialize (H (a - w) (b - s) ltac:(lia) ltac:(lia)). apply C1 in H. replace (a - w - - w) with a in H by lia. replace (b - s - - s) with b in H by lia. exact H.
      - intros H a b Ha Hb. apply C1. apply H; lia. }
    assert (C4 : forall x y, grown 0 0 0 (s + n) (ps_covers t2) x y <-> grown 0 0 s n (shrunk (- w) (- e) 0 0 (ps_covers t)) x y).
    { intros x y. unfold grown. split.
      - intros [a [b [H K]]]. exists a, (b + s). split; [apply C3; exact H|lia].
      - intros [a [b [H K]]]. exists a, (b - s). split; [apply C3; replace (b - s + s) with b by lia; exact H|lia]. }
    destruct (Z.eqb_spec (s + n) 0) as [Z0|Z0]; cbn [negb].
    + split; [exact O2|]. split; [congruence|]. intros x y. rewrite <- C4, Z0. unfold grown. split; [intros H; exists x, y; split; [exact H|lia]|]. intros [a [b [H K]]]. replace x with a by lia. replace y with b by lia. exact H.
    + pose proof (bloat_spec 0 0 0 (s + n) t2 ltac:(lia) ltac:(lia) ltac:(lia) ltac:(lia) O2) as B. destruct (ps_bloat _ _ _ _ t2) as [t3| |]; [|exact I|exact B]. destruct B as [O3 [Eo3 [_ C5]]].
      split; [exact O3|]. split; [congruence|]. intros x y. rewrite C5. apply C4.
  - replace (0 <=? w + e) with true by lia. replace (0 <=? s + n) with false by lia.
    destruct (chk (- (s + n))) as [m| |] eqn:E5; cbn [obind]; [|exact I|exact (Ck _ E5)]. apply chk_ok in E5 as [-> _].
    pose proof (shrink_spec 0 0 0 (- (s + n)) t1 ltac:(lia) ltac:(lia) ltac:(lia) ltac:(lia) O1) as S. destruct (ps_shrink _ _ _ _ t1) as [t2| |]; cbn [obind]; [|exact I|exact S]. destruct S as [O2 [Eo2 [_ C2]]].
    assert (C3 : forall x y, ps_covers t2 x y <-> shrunk 0 0 (- s) (- n) (ps_covers t) (x + w) y).
    { intros x y. rewrite C2. unfold shrunk. split.
      - intros H a b Ha Hb. specialize (H (a - w) (b - s) ltac:(lia) ltac:(lia)). apply C1 in H. replace (a - w - - w) with a in H by lia. replace (b - s - - s) with b in H by lia. exact H.
      - intros H a b Ha Hb. apply C1. apply H; lia. }
    assert (C4 : forall x y, grown 0 (w + e) 0 0 (ps_covers t2) x y <-> grown w e 0 0 (shrunk 0 0 (- s) (- n) (ps_covers t)) x y).
    { intros x y. unfold grown. split.
      - intros [a [b [H K]]]. exists (a + w), b. split; [apply C3; exact H|lia].
      - intros [a [b [H K]]]. exists (a - w), b. split; [apply C3; replace (a - w + w) with a by lia; exact H|lia]. }
    destruct (Z.eqb_spec (w + e) 0) as [Z0|Z0]; cbn [negb].
    + split; [exact O2|]. split; [congruence|]. intros x y. rewrite <- C4, Z0. unfold grown. split; [intros H; exists x, y; split; [exact H|lia]|]. intros [a [b [H K]]]. replace x with a by lia. replace y with b by lia. exact H.
    + pose proof (bloat_spec 0 (w + e) 0 0 t2 ltac:(lia) ltac:(lia) ltac:(lia) ltac:(lia) O2) as B. destruct (ps_bloat _ _ _ _ t2) as [t3| |]; [|exact I|exact B]. destruct B as [O3 [Eo3 [_ C5]]].
      split; [exact O3|]. split; [congruence|]. intros x y. rewrite C5. apply C4.
  - replace (0 <=? w + e) with true by lia. replace (0 <=? s + n) with true by lia.
    pose proof (bloat_spec 0 (w + e) 0 (s + n) t1 ltac:(lia) ltac:(lia) ltac:(lia) ltac:(lia) O1) as B. destruct (ps_bloat _ _ _ _ t1) as [t2| |]; [|exact I|exact B]. destruct B as [O2 [Eo2 [_ C2]]].
    split; [exact O2|]. split; [congruence|]. intros x y. rewrite C2, (grown_iff _ _ _ _ _ _ C1). apply grown_shift; reflexivity.
Qed.

(* ---------- no overflow ---------- *)
(* all vertices of the set lie in a square *)
Definition in_square (B : Z) (s : pset) : Prop := forall v, In v (ps_data s) -> - B <= vx v <= B /\ - B <= vy v <= B.
Lemma cnt_square B V x y : closed V -> (forall v, In v V -> - B <= vx v <= B /\ - B <= vy v <= B) -> cnt V x y <> 0 -> - B <= x < B /\ - B <= y < B.
Proof.
  intros [Hc Hr] H N. assert (F : forall (Q : vertex -> Prop), (forall v, In v V -> Q v) -> Forall Q V) by (intros Q K; apply Forall_forall; exact K).
  destruct (Z_le_dec (- B) x) as [C1|C1]; [|exfalso; apply N, cnt_left, F; intros v Hv; specialize (H v Hv); lia].
  destruct (Z_lt_dec x B) as [C2|C2]; [|exfalso; apply N; rewrite cnt_right by (apply F; intros v Hv; specialize (H v Hv); lia); apply rows_closed_prefix; exact Hr].
  destruct (Z_le_dec (- B) y) as [C3|C3]; [|exfalso; apply N, cnt_bottom, F; intros v Hv; specialize (H v Hv); lia].
  destruct (Z_lt_dec y B) as [C4|C4]; [|exfalso; apply N; rewrite cnt_top by (apply F; intros v Hv; specialize (H v Hv); lia); apply cols_closed_prefix; exact Hc]. lia.
Qed.
Lemma covers_square B s x y : ps_ok s -> in_square B s -> ps_covers s x y -> - B <= x < B /\ - B <= y < B.
Proof.
  intros O H C. unfold ps_covers, ps_count in C. destruct (ps_orient s); cbn [wind] in C; pose proof (fun u v => cnt_square B (ps_data s) u v (ok_closed _ O) H) as K; [specialize (K y x)|specialize (K x y)]; lia.
Qed.
Lemma resize_total B w e s n t : ps_ok t -> in_square B t -> 0 <= B -> 6 * B <= INT_MAX -> - B <= w <= B -> - B <= e <= B -> - B <= s <= B -> - B <= n <= B -> ps_resize w e s n t <> Overflow.
Proof.
  intros O H HB HM Bw Be Bs Bn. assert (Im : INT_MIN = - INT_MAX - 1) by reflexivity. unfold ps_resize. rewrite (chk_int (- w)), (chk_int (- s)) by (unfold is_int; lia). cbn [obind].
  destruct (move_total t (- w) (- s)) as [t1 E1]. { intros v Hv. specialize (H v Hv). unfold is_int. destruct (ps_orient t); cbn [vertex_point fst snd]; lia. }
  pose proof (ps_move_spec (- w) (- s) t O) as M. rewrite E1 in *. cbn [obind]. destruct M as [O1 [Eo W]].
  pose proof (covers_moved (- w) (- s) t t1 Eo W) as C1. clear W. assert (S1 : forall x y, ps_covers t1 x y -> - (2 * B) <= x < 2 * B /\ - (2 * B) <= y < 2 * B).
  { intros x y C. apply C1 in C. pose proof (covers_square B t _ _ O H C). lia. }
  rewrite (chk_int (w + e)), (chk_int (s + n)) by (unfold is_int; lia). cbn [obind].
  assert (Bl : forall a b u, ps_ok u -> 0 <= a <= 2 * B -> 0 <= b <= 2 * B -> (forall x y, ps_covers u x y -> - (2 * B) <= x < 2 * B /\ - (2 * B) <= y < 2 * B) -> ps_bloat 0 a 0 b u <> Overflow).
  { intros a b u Ou Ha Hb Hu E. pose proof (bloat_spec 0 a 0 b u ltac:(lia) ltac:(lia) ltac:(lia) ltac:(lia) Ou) as K. rewrite E in K. destruct K as [[x [y [[p [q [C [K1 K2]]]] K]]]|K]; [|lia]. apply K. specialize (Hu p q C). unfold is_int. lia. }
  assert (Sh : forall a b, 0 <= a <= 2 * B -> 0 <= b <= 2 * B -> match ps_shrink 0 a 0 b t1 with Ok u => ps_ok u /\ (forall x y, ps_covers u x y -> - (2 * B) <= x < 2 * B /\ - (2 * B) <= y < 2 * B) | _ => ps_shrink 0 a 0 b t1 <> Overflow end).
  { intros a b Ha Hb. pose proof (shrink_spec 0 a 0 b t1 ltac:(lia) ltac:(lia) ltac:(lia) ltac:(lia) O1) as K. destruct (ps_shrink 0 a 0 b t1) as [u| |]; [|exfalso|destruct K].
    - destruct K as [Ou [_ [_ K]]]. split; [exact Ou|]. intros x y C. apply S1. apply K in C. apply C; lia.
    - destruct K as [[x [y [C K]]]|K]; [|lia]. apply K. specialize (S1 x y C). lia. }
  destruct (Z.ltb_spec (w + e) 0) as [A1|A1], (Z.ltb_spec (s + n) 0) as [A2|A2]; cbn [xorb].
  - rewrite (chk_int (- (w + e))), (chk_int (- (s + n))) by (unfold is_int; lia). cbn [obind]. specialize (Sh (- (w + e)) (- (s + n)) ltac:(lia) ltac:(lia)). destruct (ps_shrink _ _ _ _ t1); [discriminate|exact Sh|discriminate].
  - rewrite (chk_int (- (w + e))) by (unfold is_int; lia). cbn [obind]. specialize (Sh (- (w + e)) 0 ltac:(lia) ltac:(lia)). destruct (ps_shrink _ _ _ _ t1) as [u| |]; cbn [obind]; [|exact Sh|discriminate]. destruct Sh as [Ou Hu].
    destruct (negb (s + n =? 0)); [apply Bl; try assumption; lia|discriminate].
  - rewrite (chk_int (- (s + n))) by (unfold is_int; lia). cbn [obind]. specialize (Sh 0 (- (s + n)) ltac:(lia) ltac:(lia)). destruct (ps_shrink _ _ _ _ t1) as [u| |]; cbn [obind]; [|exact Sh|discriminate]. destruct Sh as [Ou Hu].
    destruct (negb (w + e =? 0)); [apply Bl; try assumption; lia|discriminate].
  - apply Bl; try assumption; lia.
Qed.
