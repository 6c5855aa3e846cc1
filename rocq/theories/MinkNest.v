(* Closed curves that do not meet: nested or apart. *)
From Verif Require Import Base Units Poly90Spec GeoSpec PolySpec PolyCycle SnapSpec ArbSpec ArbOrder MinkWind.
From Coq Require Import Reals Lra.
Local Open Scope R_scope.

Definition constant_off (on : R -> R -> Prop) (f : R -> R -> Z) : Prop := forall x1 y1 x2 y2,
  (forall t, 0 <= t <= 1 -> ~ on (x1 + t * (x2 - x1)) (y1 + t * (y2 - y1))) -> f x1 y1 = f x2 y2.
(* what the argument needs to know of a curve and its winding number *)
Record curve (on : R -> R -> Prop) (wd : R -> R -> Z) (bx b_y : R) : Prop := mk_curve {
  c_base : on bx b_y;
  c_const : constant_off on wd;
  c_conn : forall D f, constant_off D f -> (forall x y, on x y -> ~ D x y) -> forall x y x' y', on x y -> on x' y' -> f x y = f x' y';
  c_top : forall x y, ~ on x y -> (forall y', y' < y -> ~ on x y') \/ exists y', y' < y /\ on x y' /\ forall z, y' < z <= y -> ~ on x z;
  c_hit : forall x y, ~ on x y -> wd x y <> 0%Z -> exists y', y' < y /\ on x y';
  c_right : forall x y, (forall x' y', on x' y' -> x' <= x) -> ~ on x y -> wd x y = 0%Z;
  c_max : exists x y, on x y /\ forall x' y', on x' y' -> x' <= x }.

Section Two.
Variables (on1 on2 : R -> R -> Prop) (w1 w2 : R -> R -> Z) (b1x b1y b2x b2y : R).
Hypothesis C1 : curve on1 w1 b1x b1y.
Hypothesis C2 : curve on2 w2 b2x b2y.
Hypothesis apart : forall x y, on1 x y -> ~ on2 x y.
Lemma down_const on f x y y' : constant_off on f -> y' <= y -> (forall z, y' <= z <= y -> ~ on x z) -> f x y' = f x y.
Proof.
  intros K L N. apply K. intros t T. replace (x + t * (x - x)) with x by ring. apply N.
  assert (0 <= t * (y - y')) by (apply Rmult_le_pos; lra). assert (0 <= (1 - t) * (y - y')) by (apply Rmult_le_pos; lra). lra.
Qed.
(* the first curve below a place *)
Lemma first_hit x y : ~ on1 x y -> ~ on2 x y -> w1 x y <> 0%Z ->
  w2 b1x b1y = w2 x y \/ w1 b2x b2y = w1 x y.
Proof.
  intros N1 N2 W. destruct (c_hit _ _ _ _ C1 x y N1 W) as [h [H1 H2]].
  destruct (c_top _ _ _ _ C1 x y N1) as [T|[t1 [T1 [T2 T3]]]]; [exfalso; apply (T h H1 H2)|].
  assert (K : (forall z, t1 <= z <= y -> ~ on2 x z) \/ exists t2, t1 < t2 /\ t2 < y /\ on2 x t2).
  { destruct (c_top _ _ _ _ C2 x y N2) as [S|[t2 [S1 [S2 S3]]]].
    - left. intros z Z O. destruct (Req_dec z y) as [->|NE]; [contradiction|]. apply (S z); [lra|exact O].
    - destruct (Rlt_dec t1 t2) as [L|L]; [right; exists t2; auto|]. left. intros z Z O.
      destruct (Req_dec z t1) as [->|NE]; [apply (apart x t1 T2 O)|]. apply (S3 z); [lra|exact O]. }
  destruct K as [K|[t2 [L1 [L2 O2]]]].
  - left. rewrite <- (down_const on2 w2 x y t1 (c_const _ _ _ _ C2) ltac:(lra) K).
    apply (c_conn _ _ _ _ C1 on2 w2 (c_const _ _ _ _ C2) apart); [apply (c_base _ _ _ _ C1)|exact T2].
  - right. rewrite <- (down_const on1 w1 x y t2 (c_const _ _ _ _ C1) ltac:(lra)); [|intros z Z; apply T3; lra].
    apply (c_conn _ _ _ _ C2 on1 w1 (c_const _ _ _ _ C1)); [intros u v O O'; apply (apart u v O' O)|apply (c_base _ _ _ _ C2)|exact O2].
Qed.
(* not each inside the other *)
Lemma not_mutual : w1 b2x b2y <> 0%Z -> w2 b1x b1y <> 0%Z -> False.
Proof.
  intros W1 W2. destruct (c_max _ _ _ _ C1) as [x1 [y1 [O1 M1]]]. destruct (c_max _ _ _ _ C2) as [x2 [y2 [O2 M2]]].
  destruct (Rle_dec x2 x1) as [L|L].
  - apply W2. rewrite (c_conn _ _ _ _ C1 on2 w2 (c_const _ _ _ _ C2) apart b1x b1y x1 y1 (c_base _ _ _ _ C1) O1).
    apply (c_right _ _ _ _ C2); [intros x' y' O; apply M2 in O; lra|apply apart; exact O1].
  - apply W1. assert (AP : forall x y, on2 x y -> ~ on1 x y) by (intros x y A B; apply (apart x y B A)).
    rewrite (c_conn _ _ _ _ C2 on1 w1 (c_const _ _ _ _ C1) AP b2x b2y x2 y2 (c_base _ _ _ _ C2) O2).
    apply (c_right _ _ _ _ C1); [intros x' y' O; apply M1 in O; lra|apply AP; exact O2].
Qed.
(* a curve around another one goes around what is inside the other one *)
Lemma around x y : ~ on1 x y -> ~ on2 x y -> w1 x y <> 0%Z -> w2 b1x b1y <> 0%Z -> w2 x y <> 0%Z.
Proof.
  intros N1 N2 W1 W2. destruct (first_hit x y N1 N2 W1) as [E|E]; [congruence|]. exfalso. apply not_mutual; [congruence|exact W2].
Qed.
End Two.

(* ---------- rings are curves ---------- *)
Lemma seg_top s x y : ~ on_r s x y -> (forall y', y' < y -> ~ on_r s x y') \/ exists y', y' < y /\ on_r s x y' /\ forall z, y' < z <= y -> ~ on_r s x z.
Proof.
  destruct s as [a b]. intros N.
  assert (NV : forall a b, (px a < px b)%Z -> ~ on_r (mk_seg a b) x y -> (forall y', y' < y -> ~ on_r (mk_seg a b) x y') \/ exists y', y' < y /\ on_r (mk_seg a b) x y' /\ forall z, y' < z <= y -> ~ on_r (mk_seg a b) x z).
  { clear. intros a b L N. destruct (Rlt_dec x (IZR (px a))) as [X|X]; [left; intros y' _ O; apply on_height_inv in O; [unfold inc in O; cbn [s_low s_high] in O; lra|exact L]|].
    destruct (Rlt_dec (IZR (px b)) x) as [X'|X']; [left; intros y' _ O; apply on_height_inv in O; [unfold inc in O; cbn [s_low s_high] in O; lra|exact L]|].
    assert (O : on_r (mk_seg a b) x (height (mk_seg a b) x)) by (apply on_height; [exact L|unfold inc; cbn [s_low s_high]; lra]).
    destruct (Rlt_dec (height (mk_seg a b) x) y) as [H|H].
    - right. exists (height (mk_seg a b) x). split; [exact H|]. split; [exact O|]. intros z Z O'. apply on_height_inv in O'; [lra|exact L].
    - left. intros y' Y O'. apply on_height_inv in O'; [lra|exact L]. }
  destruct (Z.lt_trichotomy (px a) (px b)) as [L|[E|L]].
  - apply NV; assumption.
  - assert (V : forall a b, px a = px b -> (py a <= py b)%Z -> ~ on_r (mk_seg a b) x y -> (forall y', y' < y -> ~ on_r (mk_seg a b) x y') \/ exists y', y' < y /\ on_r (mk_seg a b) x y' /\ forall z, y' < z <= y -> ~ on_r (mk_seg a b) x z).
    { clear. intros a b E L N. apply IZR_le in L.
      assert (I : forall z, on_r (mk_seg a b) x z -> x = IZR (px a) /\ IZR (py a) <= z <= IZR (py b)).
      { intros z [t [T [H1 H2]]]. cbn [s_low s_high] in *. rewrite <- E in H1. split; [lra|].
        assert (0 <= t * (IZR (py b) - IZR (py a))) by (apply Rmult_le_pos; lra). assert (0 <= (1 - t) * (IZR (py b) - IZR (py a))) by (apply Rmult_le_pos; lra). lra. }
      assert (J : forall z, x = IZR (px a) -> IZR (py a) <= z <= IZR (py b) -> on_r (mk_seg a b) x z).
      { intros z X Z. subst x. apply (on_vertical (mk_seg a b)); [unfold vertical_edge; cbn [s_low s_high]; apply Z.eqb_eq; exact E|exact Z]. }
      destruct (Req_dec x (IZR (px a))) as [X|X]; [|left; intros y' _ O; apply I in O; tauto].
      destruct (Rlt_dec (IZR (py b)) y) as [Y|Y].
      - right. exists (IZR (py b)). split; [exact Y|]. split; [apply J; [exact X|lra]|]. intros z Z O. apply I in O. lra.
      - left. intros y' Y' O. apply I in O. apply N. apply J; [exact X|lra]. }
    destruct (Z.le_ge_cases (py a) (py b)) as [L|L]; [apply V; assumption|].
    destruct (V b a (eq_sym E) L) as [K|[y' [Y [O K]]]]; [intros O; apply N; apply on_swap; exact O| |].
    + left. intros y' Y O. apply (K y' Y). apply on_swap. exact O.
    + right. exists y'. split; [exact Y|]. split; [apply on_swap; exact O|]. intros z Z O'. apply (K z Z). apply on_swap. exact O'.
  - destruct (NV b a L) as [K|[y' [Y [O K]]]]; [intros O; apply N; apply on_swap; exact O| |].
    + left. intros y' Y O. apply (K y' Y). apply on_swap. exact O.
    + right. exists y'. split; [exact Y|]. split; [apply on_swap; exact O|]. intros z Z O'. apply (K z Z). apply on_swap. exact O'.
Qed.
(* the same upwards, by a reflection *)
Definition neg (p : point) : point := mk_pt (- px p) (- py p).
Lemma on_neg a b x y : on_r (mk_seg a b) x y <-> on_r (mk_seg (neg a) (neg b)) (- x) (- y).
Proof.
  unfold on_r. cbn [s_low s_high neg px py]. rewrite !opp_IZR. split; intros [t [T [E1 E2]]]; exists t; (split; [exact T|]); split; lra.
Qed.
Lemma seg_bottom s x y : ~ on_r s x y -> (forall y', y < y' -> ~ on_r s x y') \/ exists y', y < y' /\ on_r s x y' /\ forall z, y <= z < y' -> ~ on_r s x z.
Proof.
  destruct s as [a b]. intros N. destruct (seg_top (mk_seg (neg a) (neg b)) (- x) (- y)) as [K|[y' [Y [O K]]]].
  - intros O. apply N. apply on_neg. exact O.
  - left. intros y' Y O. apply on_neg in O. apply (K (- y')); [lra|exact O].
  - right. exists (- y'). split; [lra|]. split; [apply on_neg; replace (- - y') with y' by ring; exact O|]. intros z Z O'. apply on_neg in O'. apply (K (- z)); [lra|exact O'].
Qed.
Lemma list_top (ss : list seg) x y : (forall s, In s ss -> ~ on_r s x y) -> (forall s y', In s ss -> y' < y -> ~ on_r s x y') \/
  exists y', y' < y /\ (exists s, In s ss /\ on_r s x y') /\ forall s z, In s ss -> y' < z <= y -> ~ on_r s x z.
Proof.
  induction ss as [|s ss IH]; intros N; [left; intros s y' []|].
  destruct IH as [K|[y1 [Y1 [[s1 [I1 O1]] K1]]]]; [intros s' I; apply N; right; exact I| |];
  destruct (seg_top s x y (N s (or_introl eq_refl))) as [T|[y2 [Y2 [O2 K2]]]].
  - left. intros s' y' [<-|I] Y; [apply T; exact Y|apply (K s' y' I Y)].
  - right. exists y2. split; [exact Y2|]. split; [exists s; split; [left; reflexivity|exact O2]|]. intros s' z [<-|I] Z; [apply K2; exact Z|].
    intros O. destruct (Req_dec z y) as [->|NE]; [apply (N s' (or_intror I) O)|]. apply (K s' z I); [lra|exact O].
  - right. exists y1. split; [exact Y1|]. split; [exists s1; split; [right; exact I1|exact O1]|]. intros s' z [<-|I] Z; [|apply (K1 s' z I Z)].
    intros O. destruct (Req_dec z y) as [->|NE]; [apply (N s (or_introl eq_refl) O)|]. apply (T z); [lra|exact O].
  - right. destruct (Rle_dec y1 y2) as [L|L].
    + exists y2. split; [exact Y2|]. split; [exists s; split; [left; reflexivity|exact O2]|]. intros s' z [<-|I] Z; [apply K2; exact Z|apply (K1 s' z I); lra].
    + exists y1. split; [exact Y1|]. split; [exists s1; split; [right; exact I1|exact O1]|]. intros s' z [<-|I] Z; [apply K2; lra|apply (K1 s' z I Z)].
Qed.
Lemma list_bottom (ss : list seg) x y : (forall s, In s ss -> ~ on_r s x y) -> (forall s y', In s ss -> y < y' -> ~ on_r s x y') \/
  exists y', y < y' /\ (exists s, In s ss /\ on_r s x y') /\ forall s z, In s ss -> y <= z < y' -> ~ on_r s x z.
Proof.
  intros N. set (f := fun s => mk_seg (neg (s_low s)) (neg (s_high s))).
  assert (F : forall s u v, on_r s u v <-> on_r (f s) (- u) (- v)) by (intros [a b] u v; apply on_neg).
  destruct (list_top (map f ss) (- x) (- y)) as [K|[y' [Y [[s [I O]] K]]]].
  - intros s I O. apply in_map_iff in I. destruct I as [s' [<- I]]. apply (N s' I). apply F. exact O.
  - left. intros s y' I Y O. apply (K (f s) (- y')); [apply in_map; exact I|lra|apply (proj1 (F _ _ _)); exact O].
  - right. exists (- y'). split; [lra|]. apply in_map_iff in I. destruct I as [s' [<- I]]. split.
    + exists s'. split; [exact I|]. apply F. replace (- - y') with y' by ring. exact O.
    + intros s z I' Z O'. apply (K (f s) (- z)); [apply in_map; exact I'|lra|apply (proj1 (F _ _ _)); exact O'].
Qed.
Lemma on_ring_segs l x y : on_ring l x y <-> exists s, In s (ring_segs l) /\ on_r s x y.
Proof.
  unfold on_ring, ring_segs. split.
  - intros [e [I O]]. exists (mk_seg (fst e) (snd e)). split; [apply (in_map (fun e => mk_seg (fst e) (snd e))); exact I|exact O].
  - intros [s [I O]]. apply in_map_iff in I. destruct I as [e [<- I]]. exists e. auto.
Qed.
Lemma ring_top l x y : ~ on_ring l x y -> (forall y', y' < y -> ~ on_ring l x y') \/ exists y', y' < y /\ on_ring l x y' /\ forall z, y' < z <= y -> ~ on_ring l x z.
Proof.
  intros N. destruct (list_top (ring_segs l) x y) as [K|[y' [Y [O K]]]].
  - intros s I O. apply N. apply on_ring_segs. exists s. auto.
  - left. intros y' Y O. apply on_ring_segs in O. destruct O as [s [I O]]. apply (K s y' I Y O).
  - right. exists y'. split; [exact Y|]. split; [apply on_ring_segs; exact O|]. intros z Z O'. apply on_ring_segs in O'. destruct O' as [s [I O']]. apply (K s z I Z O').
Qed.
Lemma ring_bottom l x y : ~ on_ring l x y -> (forall y', y < y' -> ~ on_ring l x y') \/ exists y', y < y' /\ on_ring l x y' /\ forall z, y <= z < y' -> ~ on_ring l x z.
Proof.
  intros N. destruct (list_bottom (ring_segs l) x y) as [K|[y' [Y [O K]]]].
  - intros s I O. apply N. apply on_ring_segs. exists s. auto.
  - left. intros y' Y O. apply on_ring_segs in O. destruct O as [s [I O]]. apply (K s y' I Y O).
  - right. exists y'. split; [exact Y|]. split; [apply on_ring_segs; exact O|]. intros z Z O'. apply on_ring_segs in O'. destruct O' as [s [I O']]. apply (K s z I Z O').
Qed.
(* bounds of a list *)
Lemma list_max (f : point -> R) p l : exists v, In v (p :: l) /\ forall u, In u (p :: l) -> f u <= f v.
Proof.
  revert p. induction l as [|q l IH]; intros p; [exists p; split; [left; reflexivity|intros u [<-|[]]; lra]|].
  destruct (IH q) as [v [I M]]. destruct (Rle_dec (f p) (f v)) as [L|L].
  - exists v. split; [right; exact I|]. intros u [<-|J]; [exact L|apply M; exact J].
  - exists p. split; [left; reflexivity|]. intros u [<-|J]; [lra|]. apply M in J. lra.
Qed.
Lemma on_ring_vertex l v : In v l -> on_ring l (IZR (px v)) (IZR (py v)).
Proof.
  intros I. destruct l as [|p t]; [destruct I|]. assert (exists e, In e (cyc_edges (p :: t)) /\ fst e = v) as [[a b] [E F]].
  { unfold cyc_edges. assert (L : length (p :: t) = length (t ++ [p])) by (rewrite app_length; cbn; lia). revert L I. generalize (t ++ [p]). generalize (p :: t). clear.
    induction l as [|a l IH]; intros m L I; [destruct I|]. destruct m as [|b m]; [discriminate|]. cbn [combine]. destruct I as [<-|I]; [exists (a, b); split; [left; reflexivity|reflexivity]|].
    destruct (IH m ltac:(cbn in L; lia) I) as [e [J E]]. exists e. split; [right; exact J|exact E]. }
  exists (a, b). split; [exact E|]. cbn [fst snd] in *. subst v. apply (on_low (mk_seg a b)).
Qed.
Lemma on_ring_x lo hi l x y : (forall v, In v l -> lo <= IZR (px v) <= hi) -> on_ring l x y -> lo <= x <= hi.
Proof. intros H [[a b] [I O]]. apply cyc_in in I. cbn [fst snd] in *. apply (on_between lo hi a b x y); [apply H; tauto|apply H; tauto|exact O]. Qed.
Lemma on_ring_y hi l x y : (forall v, In v l -> IZR (py v) <= hi) -> on_ring l x y -> y <= hi.
Proof.
  intros H [[a b] [I [t [T [_ E]]]]]. apply cyc_in in I. cbn [fst snd s_low s_high] in *. destruct I as [I1 I2]. apply H in I1. apply H in I2. subst y.
  assert (0 <= t * (hi - IZR (py b))) by (apply Rmult_le_pos; lra). assert (0 <= (1 - t) * (hi - IZR (py a))) by (apply Rmult_le_pos; lra). lra.
Qed.
Lemma ring_x_max l x y : on_ring l x y -> exists v, In v l /\ x <= IZR (px v).
Proof.
  intros O. destruct l as [|p l]; [destruct O as [e [[] _]]|]. destruct (list_max (fun v => IZR (px v)) p l) as [v [I M]]. exists v. split; [exact I|].
  destruct (list_max (fun v => - IZR (px v)) p l) as [u [_ M']].
  apply (on_ring_x (IZR (px u)) (IZR (px v)) (p :: l) x y); [|exact O]. intros w W. pose proof (M w W). pose proof (M' w W). cbv beta in *. lra.
Qed.
Lemma ring_x_min l x y : on_ring l x y -> exists v, In v l /\ IZR (px v) <= x.
Proof.
  intros O. destruct l as [|p l]; [destruct O as [e [[] _]]|]. destruct (list_max (fun v => IZR (px v)) p l) as [v [_ M]].
  destruct (list_max (fun v => - IZR (px v)) p l) as [u [I M']]. exists u. split; [exact I|].
  apply (on_ring_x (IZR (px u)) (IZR (px v)) (p :: l) x y); [|exact O]. intros w W. pose proof (M w W). pose proof (M' w W). cbv beta in *. lra.
Qed.
Lemma winding_hit_up l x y : ~ on_ring l x y -> winding_r l x y <> 0%Z -> exists y', y < y' /\ on_ring l x y'.
Proof.
  intros N W. destruct (ring_bottom l x y N) as [K|[y' [Y [O _]]]]; [|exists y'; auto]. exfalso. apply W.
  destruct l as [|p l]; [reflexivity|]. destruct (list_max (fun v => IZR (py v)) p l) as [v [_ M]]. destruct (list_max (fun v => IZR (px v)) p l) as [u [_ M']]. cbv beta in *.
  set (H := Rmax y (IZR (py v)) + 1). assert (H1 : y < H /\ IZR (py v) < H) by (unfold H; pose proof (Rmax_l y (IZR (py v))); pose proof (Rmax_r y (IZR (py v))); lra).
  set (G := Rmax x (IZR (px u)) + 1). assert (G1 : x < G /\ IZR (px u) < G) by (unfold G; pose proof (Rmax_l x (IZR (px u))); pose proof (Rmax_r x (IZR (px u))); lra).
  rewrite (winding_up (p :: l) x y H); [|lra|intros z Z O; destruct (Req_dec z y) as [->|NE]; [contradiction|]; apply (K z); [lra|exact O]].
  rewrite (winding_const (p :: l) x H G H).
  - apply winding_far_right. intros w I. apply M' in I. lra.
  - intros t T O. replace (H + t * (H - H)) with H in O by ring. apply (on_ring_y (IZR (py v))) in O; [lra|exact M].
Qed.
(* a function that is constant off D is constant along a ring that misses D *)
Lemma ring_conn l (g : R -> R -> Z) : (forall e, In e (cyc_edges l) -> forall x y x' y', on_r (mk_seg (fst e) (snd e)) x y -> on_r (mk_seg (fst e) (snd e)) x' y' -> g x y = g x' y') ->
  forall x y x' y', on_ring l x y -> on_ring l x' y' -> g x y = g x' y'.
Proof.
  intros H. destruct l as [|p t]; [intros x y x' y' [e [[] _]]|].
  assert (V : forall v, In v (p :: t) -> g (IZR (px v)) (IZR (py v)) = g (IZR (px p)) (IZR (py p))).
  { assert (E : forall q m, (forall a b, In (a, b) (combine (q :: m) (m ++ [p])) -> g (IZR (px a)) (IZR (py a)) = g (IZR (px b)) (IZR (py b))) ->
      forall v, In v (q :: m) -> g (IZR (px v)) (IZR (py v)) = g (IZR (px p)) (IZR (py p))).
    { intros q m. revert q. induction m as [|r m IH]; intros q K v I.
      - destruct I as [<-|[]]. apply K. left. reflexivity.
      - assert (K' : forall u, In u (r :: m) -> g (IZR (px u)) (IZR (py u)) = g (IZR (px p)) (IZR (py p))) by (apply IH; intros a b J; apply K; right; exact J).
        destruct I as [<-|I]; [|apply K'; exact I]. rewrite (K q r); [apply K'; left; reflexivity|left; reflexivity]. }
    apply E. intros a b I. apply (H (a, b) I); cbn [fst snd]; [apply (on_low (mk_seg a b))|apply (on_high (mk_seg a b))]. }
  assert (W : forall x y, on_ring (p :: t) x y -> g x y = g (IZR (px p)) (IZR (py p))).
  { intros x y [[a b] [I O]]. cbn [fst snd] in O. rewrite <- (V a) by (apply cyc_in in I; tauto). apply (H (a, b) I); [exact O|apply (on_low (mk_seg a b))]. }
  intros x y x' y' O O'. rewrite (W x y O), (W x' y' O'). reflexivity.
Qed.
Lemma on_convex s x y x' y' t : on_r s x y -> on_r s x' y' -> 0 <= t <= 1 -> on_r s (x + t * (x' - x)) (y + t * (y' - y)).
Proof.
  intros [a [A [E1 E2]]] [b [B [E3 E4]]] T. exists (a + t * (b - a)). split.
  - assert (0 <= t * b) by (apply Rmult_le_pos; lra). assert (0 <= (1 - t) * a) by (apply Rmult_le_pos; lra).
    assert (0 <= t * (1 - b)) by (apply Rmult_le_pos; lra). assert (0 <= (1 - t) * (1 - a)) by (apply Rmult_le_pos; lra). lra.
  - subst. split; ring.
Qed.
Theorem ring_curve l p t : l = p :: t -> curve (on_ring l) (winding_r l) (IZR (px p)) (IZR (py p)).
Proof.
  intros E. constructor.
  - apply on_ring_vertex. subst l. left. reflexivity.
  - intros x1 y1 x2 y2 H. apply winding_const. exact H.
  - intros D f K A. apply ring_conn. intros e I x y x' y' O O'. apply K. intros s S J. apply (A _ _ ltac:(exists e; split; [exact I|apply (on_convex _ x y x' y' s O O' S)])). exact J.
  - apply ring_top.
  - intros x y _ W. apply winding_hit. exact W.
  - intros x y M N. apply winding_far_right. intros v I. apply (M _ (IZR (py v))). apply on_ring_vertex. exact I.
  - subst l. destruct (list_max (fun v => IZR (px v)) p t) as [v [I M]]. exists (IZR (px v)), (IZR (py v)). split; [apply on_ring_vertex; exact I|].
    intros x' y' O. apply ring_x_max in O. destruct O as [u [J L]]. apply M in J. cbv beta in J. lra.
Qed.
(* the ring turned around half the place (X, Y) *)
Theorem turned_curve X Y l p t : l = p :: t ->
  curve (fun x y => on_ring l (X - x) (Y - y)) (fun x y => winding_r l (X - x) (Y - y)) (X - IZR (px p)) (Y - IZR (py p)).
Proof.
  intros E. constructor.
  - replace (X - (X - IZR (px p))) with (IZR (px p)) by ring. replace (Y - (Y - IZR (py p))) with (IZR (py p)) by ring. apply on_ring_vertex. subst l. left. reflexivity.
  - intros x1 y1 x2 y2 H. apply winding_const. intros s S O. apply (H s S).
    replace (X - (x1 + s * (x2 - x1))) with (X - x1 + s * (X - x2 - (X - x1))) by ring. replace (Y - (y1 + s * (y2 - y1))) with (Y - y1 + s * (Y - y2 - (Y - y1))) by ring. exact O.
  - intros D f K A. assert (R : forall x y x' y', on_ring l x y -> on_ring l x' y' -> f (X - x) (Y - y) = f (X - x') (Y - y')).
    { apply (ring_conn l (fun x y => f (X - x) (Y - y))). intros e I x y x' y' O O'. apply K. intros s S J.
      apply (A (X - x + s * (X - x' - (X - x))) (Y - y + s * (Y - y' - (Y - y)))); [|exact J]. exists e. split; [exact I|].
      replace (X - (X - x + s * (X - x' - (X - x)))) with (x + s * (x' - x)) by ring. replace (Y - (Y - y + s * (Y - y' - (Y - y)))) with (y + s * (y' - y)) by ring.
      apply on_convex; assumption. }
    intros x y x' y' O O'. pose proof (R _ _ _ _ O O') as Q. replace (X - (X - x)) with x in Q by ring. replace (Y - (Y - y)) with y in Q by ring.
    replace (X - (X - x')) with x' in Q by ring. replace (Y - (Y - y')) with y' in Q by ring. exact Q.
  - intros x y N. destruct (ring_bottom l (X - x) (Y - y) N) as [K|[y' [L [O K]]]].
    + left. intros y' L. apply K. lra.
    + right. exists (Y - y'). split; [lra|]. split; [replace (Y - (Y - y')) with y' by ring; exact O|]. intros z Z. apply K. lra.
  - intros x y N W. destruct (winding_hit_up l (X - x) (Y - y) N W) as [y' [L O]]. exists (Y - y'). split; [lra|]. replace (Y - (Y - y')) with y' by ring. exact O.
  - intros x y M N. apply winding_far_left; [|exact N]. intros v I. enough (X - IZR (px v) <= x) by lra. apply (M _ (Y - IZR (py v))).
    replace (X - (X - IZR (px v))) with (IZR (px v)) by ring. replace (Y - (Y - IZR (py v))) with (IZR (py v)) by ring. apply on_ring_vertex. exact I.
  - subst l. destruct (list_max (fun v => - IZR (px v)) p t) as [v [I M]]. exists (X - IZR (px v)), (Y - IZR (py v)). split.
    + replace (X - (X - IZR (px v))) with (IZR (px v)) by ring. replace (Y - (Y - IZR (py v))) with (IZR (py v)) by ring. apply on_ring_vertex. exact I.
    + intros x' y' O. apply ring_x_min in O. destruct O as [u [J L]]. apply M in J. cbv beta in J. lra.
Qed.
