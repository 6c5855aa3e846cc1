(* Moving the edges of a ring outward or inward. *)
From Verif Require Import Base Units Scan90Spec Poly90Spec Poly90Proofs PolySpec PolyCycle PolyFormGood RingWins BoxEuler RingEuler RingEscape.
From Coq Require Import Arith.

Lemma zsum_ge0 {A : Type} (f : A -> bool) l : 0 <= zsum (fun a => b2z (f a)) l.
Proof. induction l as [|a l IH]; [unfold zsum; cbn; lia|]. rewrite zsum_cons. destruct (f a); cbn [b2z]; lia. Qed.
Lemma zsum_ge1 {A : Type} (f : A -> bool) l a : In a l -> f a = true -> 1 <= zsum (fun a => b2z (f a)) l.
Proof.
  induction l as [|b l IH]; intros I H; [destruct I|]. rewrite zsum_cons. destruct I as [-> |I].
  - rewrite H. pose proof (zsum_ge0 f l). cbn [b2z]. lia.
  - specialize (IH I H). destruct (f b); cbn [b2z]; lia.
Qed.
Lemma wins_go_conn (V : Z -> Z -> Z -> Prop) rest : forall z q f, (forall w, In w (wins_go z q rest f) -> (V (wz w) (wa w) (wb w) <-> V (wb w) (wc w) (wd w))) ->
  forall w, In w (wins_go z q rest f) -> (V (wz w) (wa w) (wb w) <-> V z (fst q) (snd q)).
Proof.
  induction rest as [|r rest IH]; intros z q f H w I; cbn [wins_go] in *.
  - destruct I as [<-|[]]. cbn [wz wa wb]. tauto.
  - destruct I as [<-|I]; [cbn [wz wa wb]; tauto|]. rewrite (IH (snd q) r f ltac:(intros u Iu; apply H; right; exact Iu) w I).
    specialize (H _ (or_introl eq_refl)). cbn [wz wa wb wc wd] in H. tauto.
Qed.
Lemma wins_conn (V : Z -> Z -> Z -> Prop) cs : (forall w, In w (wins cs) -> (V (wz w) (wa w) (wb w) <-> V (wb w) (wc w) (wd w))) -> (exists w, In w (wins cs) /\ V (wz w) (wa w) (wb w)) -> forall w, In w (wins cs) -> V (wz w) (wa w) (wb w).
Proof.
  destruct cs as [|q rest]; [intros _ _ w []|]. cbn [wins]. intros H [u [Iu Vu]] w Iw. apply (wins_go_conn V rest _ q q H w Iw). apply (wins_go_conn V rest _ q q H u Iu). exact Vu.
Qed.
Lemma wins_pairs (Q : Z -> Z -> Z -> bool) cs w : In w (wins cs) -> Q (wb w) (wc w) (wd w) = true -> exists u, In u (wins cs) /\ Q (wz u) (wa u) (wb u) = true.
Proof.
  intros I H. pose proof (wins_cycle (fun z a b => b2z (Q z a b)) cs) as K. cbn beta in K.
  destruct (zsum_pos (fun w => b2z (Q (wz w) (wa w) (wb w))) (wins cs)) as [u [Iu Pu]].
  - intros u _. cbn beta. destruct (Q (wz u) (wa u) (wb u)); cbn [b2z]; lia.
  - rewrite K. pose proof (zsum_ge1 (fun w => Q (wb w) (wc w) (wd w)) (wins cs) w I H). lia.
  - exists u. split; [exact Iu|]. cbn beta in Pu. destruct (Q (wz u) (wa u) (wb u)); [reflexivity|cbn [b2z] in Pu; lia].
Qed.

(* ---------- the reversed ring ---------- *)
Definition rw (w : win) : win := mk_win (wd w) (wc w) (wb w) (wa w) (wz w).
Lemma gedge_neg (P : Z -> Z -> bool) v a b c : gedge P true v a b c -> gedge (fun x y => negb (P x y)) true v c b a.
Proof. intros H. apply gedge_rev in H. unfold gedge in *. cbn [negb] in *. destruct v; destruct H as [H1 H2]; split; intros z Hz; [destruct (H1 z Hz) as [E1 E2]|destruct (H2 z Hz) as [E1 E2]|destruct (H1 z Hz) as [E1 E2]|destruct (H2 z Hz) as [E1 E2]]; rewrite E1, E2; split; reflexivity. Qed.
Lemma gcorner_ext (P Q : Z -> Z -> bool) v a b c e : (forall x y, P x y = Q x y) -> gcorner P v a b c e -> gcorner Q v a b c e.
Proof. intros H. unfold gcorner, qd. destruct v; rewrite !H; tauto. Qed.
Lemma wokk_rev C w : wokk false C w -> wokk true (fun x y => negb (C x y)) (rw w).
Proof.
  intros [H V Zz Az Ac Ad C1 C2]. constructor; cbn [rw wz wa wb wc wd]; try congruence.
  - apply gedge_neg. exact H.
  - apply gedge_neg. exact Zz.
  - apply gedge_neg. exact V.
  - apply gcorner_rev in C2. cbn [negb] in C2. apply (gcorner_ext (fun x y => xorb false (C x y))); [|exact C2]. intros x y. destruct (C x y); reflexivity.
  - apply gcorner_rev in C1. cbn [negb] in C1. apply (gcorner_ext (fun x y => xorb false (C x y))); [|exact C1]. intros x y. destruct (C x y); reflexivity.
Qed.
Lemma aring_rev Ws C c0 : aring Ws C false c0 -> aring (map rw Ws) (fun x y => negb (C x y)) true (1 - c0).
Proof.
  intros [W Y N F]. constructor.
  - intros x y. rewrite PolyCycle.zsum_map. cbn [rw wa wb wc]. specialize (W x y). rewrite (zsum_ext _ (fun w => 0 - b2z (wb w <=? y) * (b2z (wa w <=? x) - b2z (wc w <=? x)))) by (intros; lia). rewrite zsum_sub, W, (zsum_zero Ws (fun _ => 0)) by reflexivity. destruct (C x y); cbn [negb b2z]; lia.
  - intros G. rewrite !PolyCycle.zsum_map. cbn [rw wz wa wb wc wd]. symmetry. exact (Y (fun z a b => G b a z)).
  - intros V H [w' [I Vw]] u' Iu. apply in_map_iff in I. destruct I as [w [<- I]]. apply in_map_iff in Iu. destruct Iu as [u [<- Iu]]. cbn [rw wz wa wb wc wd] in *.
    assert (H' : forall w, In w Ws -> (V (wb w) (wa w) (wz w) <-> V (wd w) (wc w) (wb w))) by (intros v Iv; specialize (H (rw v) (in_map rw Ws v Iv)); cbn [rw wz wa wb wc wd] in H; tauto).
    apply (H' u Iu). apply (N (fun z a b => V b a z)); [exact H'| |exact Iu]. exists w. split; [exact I|]. apply (H' w I). exact Vw.
  - apply Forall_forall. intros w' I. apply in_map_iff in I. destruct I as [w [<- I]]. apply wokk_rev. rewrite Forall_forall in F. apply F. exact I.
Qed.

(* ---------- from the region to the inside of a ring ---------- *)
Section Inside.
Variables (P : Z -> Z -> bool) (cs : list (Z * Z)) (c0 : Z).
Let wn (x y : Z) : Z := winding_number (ring_points (flat cs)) x y.
Hypothesis Hw : Forall (wok P) (wins cs).
Hypothesis Hz : no_zero_edge (ring_points (flat cs)).
Hypothesis Hv : forall x y, wn x y = - c0 \/ wn x y = 1 - c0.
Lemma win_neq w : In w (wins cs) -> wa w <> wc w /\ wb w <> wd w.
Proof.
  intros I. unfold no_zero_edge in Hz. rewrite wins_edges in Hz. 
  assert (I1 : In (hor w) (flat_map (fun w => [hor w; ver w]) (wins cs))) by (apply in_flat_map; exists w; split; [exact I|left; reflexivity]).
  assert (I2 : In (ver w) (flat_map (fun w => [hor w; ver w]) (wins cs))) by (apply in_flat_map; exists w; split; [exact I|right; left; reflexivity]).
  pose proof (proj1 (Forall_forall _ _) Hz _ I1) as H1. pose proof (proj1 (Forall_forall _ _) Hz _ I2) as H2. unfold hor, ver in *. cbn [fst snd] in *.
  split; intros N; [apply H1|apply H2]; rewrite N; reflexivity.
Qed.
Lemma win_neq_z w : In w (wins cs) -> wz w <> wb w.
Proof.
  intros I N. pose proof (wins_cycle (fun z a b => b2z (z =? b)) cs) as K. cbn beta in K. rewrite (zsum_zero _ (fun w => b2z (wb w =? wd w))) in K.
  - pose proof (zsum_ge1 (fun w => wz w =? wb w) (wins cs) w I ltac:(lia)). lia.
  - intros u Iu. pose proof (win_neq u Iu) as [_ Q]. replace (wb u =? wd u) with false by lia. reflexivity.
Qed.
Lemma wn_same_h x y : P x y = P (x - 1) y -> wn x y = wn (x - 1) y.
Proof.
  intros E. unfold wn. rewrite !wins_winding.
  assert (V : forall x y, zsum (fun w => b2z (wb w <=? y) * (b2z (wa w <=? x) - b2z (wc w <=? x))) (wins cs) = zsum (fun w => b2z (wa w <=? x) * (b2z (wb w <=? y) - b2z (wz w <=? y))) (wins cs)).
  { clear. intros x y. pose proof (wins_cycle (fun z a _ => b2z (a <=? x) * b2z (z <=? y)) cs) as C. cbn beta in C.
    rewrite (zsum_ext _ (fun w => b2z (wa w <=? x) * b2z (wb w <=? y) - b2z (wc w <=? x) * b2z (wb w <=? y))) by (intros; lia).
    rewrite (zsum_ext (fun w => b2z (wa w <=? x) * (b2z (wb w <=? y) - b2z (wz w <=? y))) (fun w => b2z (wa w <=? x) * b2z (wb w <=? y) - b2z (wa w <=? x) * b2z (wz w <=? y))) by (intros; lia). rewrite !zsum_sub, C. reflexivity. }
  rewrite !V. apply zsum_ext. intros w I. rewrite Forall_forall in Hw. destruct (Hw w I) as [_ _ [Z1 Z2] _ _].
  destruct (Z.eqb_spec (wa w) x) as [Ea|Ea]; [|replace (wa w <=? x) with (wa w <=? x - 1) by lia; reflexivity].
  assert (N1 : ~ (wz w <= y < wb w)) by (intros N; destruct (Z1 y N) as [Q1 Q2]; rewrite Ea in *; cbn [negb] in *; congruence).
  assert (N2 : ~ (wb w <= y < wz w)) by (intros N; destruct (Z2 y N) as [Q1 Q2]; rewrite Ea in *; cbn [negb] in *; congruence).
  clear - N1 N2. destruct (Z.leb_spec (wb w) y), (Z.leb_spec (wz w) y); cbn [b2z]; lia.
Qed.
Lemma wn_same_v x y : P x y = P x (y - 1) -> wn x y = wn x (y - 1).
Proof.
  intros E. unfold wn. rewrite !wins_winding. apply zsum_ext. intros w I. rewrite Forall_forall in Hw. destruct (Hw w I) as [[Z1 Z2] _ _ _ _].
  destruct (Z.eqb_spec (wb w) y) as [Ea|Ea]; [|replace (wb w <=? y) with (wb w <=? y - 1) by lia; reflexivity].
  assert (N1 : ~ (wa w <= x < wc w)) by (intros N; destruct (Z1 x N) as [Q1 Q2]; rewrite Ea in *; cbn [negb] in *; congruence).
  assert (N2 : ~ (wc w <= x < wa w)) by (intros N; destruct (Z2 x N) as [Q1 Q2]; rewrite Ea in *; cbn [negb] in *; congruence).
  clear - N1 N2. destruct (Z.leb_spec (wa w) x), (Z.leb_spec (wc w) x); cbn [b2z]; lia.
Qed.
Definition ins (x y : Z) : bool := wn x y + c0 =? 1.
Lemma b2z_ins x y : wn x y = b2z (ins x y) - c0.
Proof. unfold ins. destruct (Hv x y) as [E|E]; rewrite E; [replace (- c0 + c0 =? 1) with false by lia|replace (1 - c0 + c0 =? 1) with true by lia]; cbn [b2z]; lia. Qed.
Lemma ins_jump x y u v : wn u v < wn x y -> ins x y = true /\ ins u v = false.
Proof. pose proof (b2z_ins x y) as E1. pose proof (b2z_ins u v) as E2. intros L. destruct (ins x y), (ins u v); cbn [b2z] in *; lia. Qed.
Lemma wn_v_ x y : wn x y = zsum (fun w => b2z (wa w <=? x) * (b2z (wb w <=? y) - b2z (wz w <=? y))) (wins cs).
Proof.
  unfold wn. rewrite wins_winding. pose proof (wins_cycle (fun z a _ => b2z (a <=? x) * b2z (z <=? y)) cs) as C. cbn beta in C.
  rewrite (zsum_ext _ (fun w => b2z (wa w <=? x) * b2z (wb w <=? y) - b2z (wc w <=? x) * b2z (wb w <=? y))) by (intros; lia).
  rewrite (zsum_ext (fun w => b2z (wa w <=? x) * (b2z (wb w <=? y) - b2z (wz w <=? y))) (fun w => b2z (wa w <=? x) * b2z (wb w <=? y) - b2z (wa w <=? x) * b2z (wz w <=? y))) by (intros; lia). rewrite !zsum_sub, C. reflexivity.
Qed.
Lemma dv_h x y : wn x y - wn x (y - 1) = zsum (fun w => b2z ((wb w =? y) && (wa w <=? x) && (x <? wc w)) - b2z ((wb w =? y) && (wc w <=? x) && (x <? wa w))) (wins cs).
Proof.
  unfold wn. rewrite !wins_winding, <- zsum_sub. apply zsum_ext. intros w _.
  destruct (Z.leb_spec (wb w) y), (Z.leb_spec (wb w) (y - 1)), (Z.eqb_spec (wb w) y); try lia; destruct (Z.leb_spec (wa w) x), (Z.leb_spec (wc w) x), (Z.ltb_spec x (wc w)), (Z.ltb_spec x (wa w)); cbn [b2z andb]; lia.
Qed.
Lemma dv_v x y : wn x y - wn (x - 1) y = zsum (fun w => b2z ((wa w =? x) && (wb w <=? y) && (y <? wz w)) - b2z ((wa w =? x) && (wz w <=? y) && (y <? wb w))) (wins cs).
Proof.
  rewrite !wn_v_, <- zsum_sub. apply zsum_ext. intros w _.
  destruct (Z.leb_spec (wa w) x), (Z.leb_spec (wa w) (x - 1)), (Z.eqb_spec (wa w) x); try lia; destruct (Z.leb_spec (wb w) y), (Z.leb_spec (wz w) y), (Z.ltb_spec y (wz w)), (Z.ltb_spec y (wb w)); cbn [b2z andb]; lia.
Qed.
Lemma some_more (p q : win -> bool) d w : d = zsum (fun w => b2z (p w) - b2z (q w)) (wins cs) -> In w (wins cs) -> p w = true -> (forall u, In u (wins cs) -> q u = true -> False) -> 1 <= d.
Proof.
  intros -> I Hp Hq. rewrite zsum_sub. rewrite (zsum_zero _ (fun w => b2z (q w))); [pose proof (zsum_ge1 p (wins cs) w I Hp); lia|]. intros u Iu. destruct (q u) eqn:E; [destruct (Hq u Iu E)|reflexivity].
Qed.
Lemma some_less (p q : win -> bool) d w : d = zsum (fun w => b2z (p w) - b2z (q w)) (wins cs) -> In w (wins cs) -> q w = true -> (forall u, In u (wins cs) -> p u = true -> False) -> d <= -1.
Proof.
  intros -> I Hp Hq. rewrite zsum_sub. rewrite (zsum_zero _ (fun w => b2z (p w))); [pose proof (zsum_ge1 q (wins cs) w I Hp); lia|]. intros u Iu. destruct (p u) eqn:E; [destruct (Hq u Iu E)|reflexivity].
Qed.
Lemma ins_h w : In w (wins cs) -> gedge ins true false (wa w) (wb w) (wc w).
Proof.
  intros I. rewrite Forall_forall in Hw. pose proof (Hw w I) as [[H1 H2] _ _ _ _]. split; intros x Hx.
  - destruct (H1 x Hx) as [Q1 Q2]. cbn [negb] in *. apply ins_jump. enough (1 <= wn x (wb w) - wn x (wb w - 1)) by lia. refine (some_more _ _ _ w (dv_h x (wb w)) I _ _); cbn beta; [lia|].
    intros u Iu Hu. destruct (Hw u Iu) as [[_ U] _ _ _ _]. destruct (U x ltac:(lia)) as [U1 U2]. replace (wb u) with (wb w) in * by lia. cbn [negb] in *. congruence.
  - destruct (H2 x Hx) as [Q1 Q2]. cbn [negb] in *. apply ins_jump. enough (wn x (wb w) - wn x (wb w - 1) <= -1) by lia. refine (some_less _ _ _ w (dv_h x (wb w)) I _ _); cbn beta; [lia|].
    intros u Iu Hu. destruct (Hw u Iu) as [[U _] _ _ _ _]. destruct (U x ltac:(lia)) as [U1 U2]. replace (wb u) with (wb w) in * by lia. cbn [negb] in *. congruence.
Qed.
Lemma ins_z w : In w (wins cs) -> gedge ins true true (wz w) (wa w) (wb w).
Proof.
  intros I. rewrite Forall_forall in Hw. pose proof (Hw w I) as [_ _ [H1 H2] _ _]. split; intros y Hy.
  - destruct (H1 y Hy) as [Q1 Q2]. cbn [negb] in *. apply ins_jump. enough (wn (wa w) y - wn (wa w - 1) y <= -1) by lia. refine (some_less _ _ _ w (dv_v (wa w) y) I _ _); cbn beta; [lia|].
    intros u Iu Hu. destruct (Hw u Iu) as [_ _ [_ U] _ _]. destruct (U y ltac:(lia)) as [U1 U2]. replace (wa u) with (wa w) in * by lia. cbn [negb] in *. congruence.
  - destruct (H2 y Hy) as [Q1 Q2]. cbn [negb] in *. apply ins_jump. enough (1 <= wn (wa w) y - wn (wa w - 1) y) by lia. refine (some_more _ _ _ w (dv_v (wa w) y) I _ _); cbn beta; [lia|].
    intros u Iu Hu. destruct (Hw u Iu) as [_ _ [U _] _ _]. destruct (U y ltac:(lia)) as [U1 U2]. replace (wa u) with (wa w) in * by lia. cbn [negb] in *. congruence.
Qed.
Lemma ins_v w : In w (wins cs) -> gedge ins true true (wb w) (wc w) (wd w).
Proof.
  intros I. destruct (wins_pairs (fun z a b => (z =? wb w) && (a =? wc w) && (b =? wd w)) cs w I ltac:(lia)) as [u [Iu Eu]].
  replace (wb w) with (wz u) by lia. replace (wc w) with (wa u) by lia. replace (wd w) with (wb u) by lia. apply ins_z. exact Iu.
Qed.
Lemma ins_same_h x y : P x y = P (x - 1) y -> ins x y = ins (x - 1) y.
Proof. intros E. unfold ins. rewrite (wn_same_h x y E). reflexivity. Qed.
Lemma ins_same_v x y : P x y = P x (y - 1) -> ins x y = ins x (y - 1).
Proof. intros E. unfold ins. rewrite (wn_same_v x y E). reflexivity. Qed.
Lemma ins_wokk w : In w (wins cs) -> wokk false ins w.
Proof.
  intros I. pose proof (win_neq w I) as [N1 N2]. pose proof (win_neq_z w I) as N3. pose proof (ins_h w I) as H. pose proof (ins_v w I) as V. pose proof (ins_z w I) as Zz.
  pose proof Hw as Hw'. rewrite Forall_forall in Hw'. destruct (Hw' w I) as [PH PV PZ PC1 PC2]. constructor; try assumption; unfold gcorner, qd in *; rewrite ?Bool.xorb_false_l; cbn [gedge] in *; cbn [negb] in *.
  - destruct (Z.ltb_spec (wa w) (wc w)) as [C|C], (Z.ltb_spec (wb w) (wz w)) as [D|D].
    + left. apply (proj1 H). lia.
    + right. destruct (proj1 PH (wa w) ltac:(lia)) as [Q1 Q2]. destruct PC1 as [PC|PC]; [congruence|]. destruct (proj1 PZ (wb w - 1) ltac:(lia)) as [Q3 Q4]. rewrite ins_same_v by congruence. apply (proj1 Zz). lia.
    + right. destruct (proj2 PH (wa w - 1) ltac:(lia)) as [Q1 Q2]. destruct PC1 as [PC|PC]; [congruence|]. destruct (proj2 PZ (wb w) ltac:(lia)) as [Q3 Q4]. rewrite <- ins_same_v by congruence. apply (proj2 Zz). lia.
    + left. apply (proj2 H). lia.
  - destruct (Z.ltb_spec (wc w) (wa w)) as [C|C], (Z.ltb_spec (wb w) (wd w)) as [D|D].
    + right. destruct (proj2 PH (wc w) ltac:(lia)) as [Q1 Q2]. destruct PC2 as [PC|PC]; [congruence|]. rewrite <- ins_same_h by congruence. apply (proj2 H). lia.
    + left. apply (proj2 H). lia.
    + left. apply (proj1 H). lia.
    + right. destruct (proj1 PH (wc w - 1) ltac:(lia)) as [Q1 Q2]. destruct PC2 as [PC|PC]; [congruence|]. rewrite ins_same_h by congruence. apply (proj1 H). lia.
Qed.
Lemma ins_aring : aring (wins cs) ins false c0.
Proof.
  constructor.
  - intros x y. rewrite <- wins_winding. apply b2z_ins.
  - intros F. apply wins_cycle.
  - intros V. apply wins_conn.
  - apply Forall_forall. intros w I. apply ins_wokk. exact I.
Qed.
End Inside.

(* ---------- the moved ring ---------- *)
Definition up_x (w e z a b : Z) : Z := if z <? b then a + e else a - w.
Definition up_y (s n a b c : Z) : Z := if a <? c then b - s else b + n.
Definition dn_x (w e z a b : Z) : Z := if z <? b then a - e else a + w.
Definition dn_y (s n a b c : Z) : Z := if a <? c then b + s else b - n.
Definition wide (cs : list (Z * Z)) (d : Z) : Prop := exists u v, In u (wins cs) /\ In v (wins cs) /\ (forall w, In w (wins cs) -> wa u <= wa w <= wa v) /\ d <= wa v - wa u.
Section Moved.
Variables (P : Z -> Z -> bool) (cs : list (Z * Z)) (c0 : Z).
Let wn (x y : Z) : Z := winding_number (ring_points (flat cs)) x y.
Hypothesis Hw : Forall (wok P) (wins cs).
Hypothesis Hz : no_zero_edge (ring_points (flat cs)).
Hypothesis Hv : forall x y, wn x y = - c0 \/ wn x y = 1 - c0.
Variables (w e s n X Y : Z).
Hypothesis Hx : 0 <= w + e.
Hypothesis Hy : 0 <= s + n.
Let up : Z := winding_number (ring_points (flat (moved (up_x w e) (up_y s n) cs))) X Y.
Let dn : Z := winding_number (ring_points (flat (moved (dn_x w e) (dn_y s n) cs))) X Y.
Let C := ins cs c0.
Let nx : nat := Z.to_nat (w + e + 1).
Let ny : nat := Z.to_nat (s + n + 1).
Lemma nx_eq : Z.of_nat nx = w + e + 1.
Proof. unfold nx. lia. Qed.
Lemma ny_eq : Z.of_nat ny = s + n + 1.
Proof. unfold ny. lia. Qed.
Lemma nx1 : (1 <= nx)%nat.
Proof. pose proof nx_eq. lia. Qed.
Lemma ny1 : (1 <= ny)%nat.
Proof. pose proof ny_eq. lia. Qed.
Lemma up_mw : up = mw (wins cs) (X - e) nx (Y - n) ny.
Proof.
  unfold up, mw. rewrite moved_winding. apply zsum_ext. intros v _. unfold ay, ax, up_x, up_y. rewrite nx_eq, ny_eq. clear.
  f_equal; [|f_equal]; match goal with |- context [if ?c then _ else _] => destruct c end; f_equal; lia.
Qed.
Lemma dn_mw : dn = - mw (map rw (wins cs)) (X - w) nx (Y - s) ny.
Proof.
  unfold dn, mw. rewrite moved_winding, PolyCycle.zsum_map. cbn [rw wz wa wb wc wd]. rewrite <- zsum_opp. apply zsum_ext. intros v I. unfold ay, ax, dn_x, dn_y. rewrite nx_eq, ny_eq.
  destruct (win_neq cs Hz v I) as [N1 N2]. pose proof (win_neq_z cs Hz v I) as N3. clear - N1 N2 N3.
  assert (E1 : b2z ((if wa v <? wc v then wb v + s else wb v - n) <=? Y) = (if wc v <? wa v then b2z (wb v <? Y - s + (s + n + 1)) else b2z (wb v <=? Y - s))) by (destruct (Z.ltb_spec (wa v) (wc v)), (Z.ltb_spec (wc v) (wa v)); try lia; f_equal; lia).
  assert (E2 : b2z ((if wz v <? wb v then wa v - e else wa v + w) <=? X) = (if wb v <? wz v then b2z (wa v <=? X - w) else b2z (wa v <? X - w + (w + e + 1)))) by (destruct (Z.ltb_spec (wz v) (wb v)), (Z.ltb_spec (wb v) (wz v)); try lia; f_equal; lia).
  assert (E3 : b2z ((if wb v <? wd v then wc v - e else wc v + w) <=? X) = (if wd v <? wb v then b2z (wc v <=? X - w) else b2z (wc v <? X - w + (w + e + 1)))) by (destruct (Z.ltb_spec (wd v) (wb v)), (Z.ltb_spec (wb v) (wd v)); try lia; f_equal; lia).
  rewrite E1, E2, E3. lia.
Qed.
Lemma in_up x y : inb (X - e) nx (Y - n) ny x y = true <-> X - e <= x <= X + w /\ Y - n <= y <= Y + s.
Proof. unfold inb. rewrite nx_eq, ny_eq. lia. Qed.
Lemma in_dn x y : inb (X - w) nx (Y - s) ny x y = true <-> X - w <= x <= X + e /\ Y - s <= y <= Y + n.
Proof. unfold inb. rewrite nx_eq, ny_eq. lia. Qed.
Let A : aring (wins cs) C false c0 := ins_aring P cs c0 Hw Hz Hv.
Lemma C_wn x y : wn x y = b2z (C x y) - c0.
Proof. apply b2z_ins. exact Hv. Qed.

Lemma up_all v : (forall x y, X - e <= x <= X + w -> Y - n <= y <= Y + s -> wn x y = v) -> up = v.
Proof.
  intros H. rewrite up_mw. pose proof (H (X - e) (Y - n) ltac:(lia) ltac:(lia)) as E. pose proof (C_wn (X - e) (Y - n)) as E'. destruct (C (X - e) (Y - n)) eqn:K; cbn [b2z] in E'.
  - rewrite (mw_full _ C false c0 A _ _ _ _ nx1 ny1); [lia|]. intros x y Hi. apply in_up in Hi. pose proof (H x y ltac:(lia) ltac:(lia)). pose proof (C_wn x y). destruct (C x y); [reflexivity|cbn [b2z] in *; lia].
  - rewrite (mw_none _ C false c0 A _ _ _ _ nx1 ny1); [lia|]. intros x y Hi. apply in_up in Hi. pose proof (H x y ltac:(lia) ltac:(lia)). pose proof (C_wn x y). destruct (C x y); [cbn [b2z] in *; lia|reflexivity].
Qed.
Lemma up_some x y : c0 = 0 \/ (c0 = 1 /\ wide cs (w + e)) -> X - e <= x <= X + w -> Y - n <= y <= Y + s -> wn x y = 1 - c0 -> 1 - c0 <= up.
Proof.
  intros Hc Ix Iy E. rewrite up_mw. apply (mw_some _ C false c0 A _ _ _ _ nx1 ny1 x y).
  - destruct Hc as [Hc|[Hc [u [v [Iu [Iv [M D]]]]]]]; [left; exact Hc|right]. split; [exact Hc|]. exists u, v. rewrite nx_eq. repeat split; try assumption; try (apply M; assumption). lia.
  - apply in_up. lia.
  - pose proof (C_wn x y). destruct (C x y); [reflexivity|cbn [b2z] in *; lia].
Qed.
Lemma dn_all v : (forall x y, X - w <= x <= X + e -> Y - s <= y <= Y + n -> wn x y = v) -> dn = v.
Proof.
  intros H. rewrite dn_mw. pose proof (H (X - w) (Y - s) ltac:(lia) ltac:(lia)) as E. pose proof (C_wn (X - w) (Y - s)) as E'. pose proof (aring_rev _ _ _ A) as A'. destruct (C (X - w) (Y - s)) eqn:K; cbn [b2z] in E'.
  - rewrite (mw_none _ _ true (1 - c0) A' _ _ _ _ nx1 ny1); [lia|]. intros x y Hi. apply in_dn in Hi. pose proof (H x y ltac:(lia) ltac:(lia)). pose proof (C_wn x y). destruct (C x y); [reflexivity|cbn [b2z] in *; lia].
  - rewrite (mw_full _ _ true (1 - c0) A' _ _ _ _ nx1 ny1); [lia|]. intros x y Hi. apply in_dn in Hi. pose proof (H x y ltac:(lia) ltac:(lia)). pose proof (C_wn x y). destruct (C x y); [cbn [b2z] in *; lia|reflexivity].
Qed.
Lemma wide_rev d : wide cs d -> exists u v, In u (map rw (wins cs)) /\ In v (map rw (wins cs)) /\ (forall q, In q (map rw (wins cs)) -> wa u <= wa q <= wa v) /\ d <= wa v - wa u.
Proof.
  intros [u [v [Iu [Iv [M D]]]]]. 
  assert (K : forall q, In q (wins cs) -> exists r, In r (wins cs) /\ wc r = wa q).
  { intros q Iq. pose proof (wins_cycle (fun z a b => b2z (a =? wa q)) cs) as Cy. cbn beta in Cy. pose proof (zsum_ge1 (fun r => wa r =? wa q) (wins cs) q Iq ltac:(lia)) as G. cbn beta in G.
    destruct (zsum_pos (fun r => b2z (wc r =? wa q)) (wins cs)) as [r [Ir Pr]]; [intros r _; cbn beta; destruct (wc r =? wa q); cbn [b2z]; lia|lia|]. exists r. split; [exact Ir|]. cbn beta in Pr. destruct (Z.eqb_spec (wc r) (wa q)) as [Q|Q]; [exact Q|cbn [b2z] in Pr; lia]. }
  destruct (K u Iu) as [u' [Iu' Eu]]. destruct (K v Iv) as [v' [Iv' Ev]]. exists (rw u'), (rw v'). split; [apply in_map; exact Iu'|]. split; [apply in_map; exact Iv'|]. cbn [rw wa]. split; [|lia].
  intros q Iq. apply in_map_iff in Iq. destruct Iq as [q' [<- Iq]]. cbn [rw wa]. destruct (wins_pairs (fun z a b => a =? wc q') cs q' Iq ltac:(lia)) as [p [Ip Ep]]. specialize (M p Ip). lia.
Qed.
Lemma dn_some x y : c0 = 1 \/ (c0 = 0 /\ wide cs (w + e)) -> X - w <= x <= X + e -> Y - s <= y <= Y + n -> wn x y = - c0 -> dn <= - c0.
Proof.
  intros Hc Ix Iy E. rewrite dn_mw. pose proof (aring_rev _ _ _ A) as A'. enough (1 - (1 - c0) <= mw (map rw (wins cs)) (X - w) nx (Y - s) ny) by lia. apply (mw_some _ _ true (1 - c0) A' _ _ _ _ nx1 ny1 x y).
  - destruct Hc as [Hc|[Hc D]]; [left; lia|right]. split; [lia|]. destruct (wide_rev _ D) as [u [v [Iu [Iv [M L]]]]]. exists u, v. rewrite nx_eq. split; [exact Iu|]. split; [exact Iv|]. split; [exact M|lia].
  - apply in_dn. lia.
  - pose proof (C_wn x y). destruct (C x y); [cbn [b2z] in *; lia|reflexivity].
Qed.
End Moved.
