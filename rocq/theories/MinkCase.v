(* Two simple polygons: a parallelogram and a square with a square hole. *)
From Verif Require Import Base Units Outcome Poly90Spec Poly90Proofs Poly90Vertices GeoSpec PolySpec PolyCycle SnapSpec ArbSpec ArbOrder ArbFormSpec MinkSpec MinkModel MinkWind MinkNest MinkPara MinkMain.
From Coq Require Import Reals Lra Classical.
Local Open Scope R_scope.

Lemma winding_close p l x y : winding_r ((p :: l) ++ [p]) x y = winding_r (p :: l) x y.
Proof.
  unfold winding_r. rewrite cyc_close, zsum_app, zsum_cons. replace (crossing_r x y (p, p)) with 0%Z; [unfold zsum; cbn [fold_right]; lia|].
  symmetry. apply crossing_vert. reflexivity.
Qed.
Lemma oriented_close p l x y : oriented_r ((p :: l) ++ [p]) x y = oriented_r (p :: l) x y.
Proof. unfold oriented_r. rewrite winding_close, shoelace_close. reflexivity. Qed.
Lemma on_close p l x y : on_ring ((p :: l) ++ [p]) x y <-> on_ring (p :: l) x y.
Proof.
  unfold on_ring. rewrite cyc_close. split.
  - intros [e [I O]]. apply in_app_or in I. destruct I as [I|[<-|[]]]; [exists e; auto|]. cbn [fst snd] in O.
    destruct O as [t [_ [E1 E2]]]. cbn [s_low s_high] in *. destruct (on_ring_vertex (p :: l) p) as [e [I O]]; [left; reflexivity|]. exists e. split; [exact I|].
    replace x with (IZR (px p)) by lra. replace y with (IZR (py p)) by lra. exact O.
  - intros [e [I O]]. exists e. split; [apply in_or_app; left; exact I|exact O].
Qed.
(* the square with the corner (c, c) and the sides s *)
Definition square (c s : Z) : list point := [mk_pt c (c + s); mk_pt c c; mk_pt (c + s) c; mk_pt (c + s) (c + s); mk_pt c (c + s)].
Lemma square_on c s x y : (0 < s)%Z -> on_ring (square c s) x y <->
  IZR c <= x <= IZR c + IZR s /\ IZR c <= y <= IZR c + IZR s /\ (x = IZR c \/ x = IZR c + IZR s \/ y = IZR c \/ y = IZR c + IZR s).
Proof.
  intros S. apply IZR_lt in S. unfold on_ring, square. cbn [cyc_edges combine app]. split.
  - intros [e [I [t [T [X Y]]]]]. assert (0 <= t * IZR s <= IZR s) by (split; [apply Rmult_le_pos; lra|]; rewrite <- (Rmult_1_l (IZR s)) at 2; apply Rmult_le_compat_r; lra).
    destruct I as [<-|[<-|[<-|[<-|[<-|[]]]]]]; cbn [fst snd s_low s_high px py] in *; rewrite ?plus_IZR in *; repeat split; try lra.
  - intros [X [Y [E|[E|[E|E]]]]].
    + exists (mk_pt c (c + s), mk_pt c c). split; [left; reflexivity|]. exists ((IZR c + IZR s - y) / IZR s). cbn [fst snd s_low s_high px py]. rewrite ?plus_IZR. split; [split; [apply Rmult_le_pos; [lra|]; left; apply Rinv_0_lt_compat; lra|apply (Rmult_le_reg_r (IZR s)); [lra|]; field_simplify; lra]|]. split; [lra|]. field. lra.
    + exists (mk_pt (c + s) c, mk_pt (c + s) (c + s)). split; [right; right; left; reflexivity|]. exists ((y - IZR c) / IZR s). cbn [fst snd s_low s_high px py]. rewrite ?plus_IZR. split; [split; [apply Rmult_le_pos; [lra|]; left; apply Rinv_0_lt_compat; lra|apply (Rmult_le_reg_r (IZR s)); [lra|]; field_simplify; lra]|]. split; [lra|]. field. lra.
    + exists (mk_pt c c, mk_pt (c + s) c). split; [right; left; reflexivity|]. exists ((x - IZR c) / IZR s). cbn [fst snd s_low s_high px py]. rewrite ?plus_IZR. split; [split; [apply Rmult_le_pos; [lra|]; left; apply Rinv_0_lt_compat; lra|apply (Rmult_le_reg_r (IZR s)); [lra|]; field_simplify; lra]|]. split; [|lra]. field. lra.
    + exists (mk_pt (c + s) (c + s), mk_pt c (c + s)). split; [right; right; right; left; reflexivity|]. exists ((IZR c + IZR s - x) / IZR s). cbn [fst snd s_low s_high px py]. rewrite ?plus_IZR. split; [split; [apply Rmult_le_pos; [lra|]; left; apply Rinv_0_lt_compat; lra|apply (Rmult_le_reg_r (IZR s)); [lra|]; field_simplify; lra]|]. split; [|lra]. field. lra.
Qed.
Lemma square_covers c s x y : (0 < s)%Z -> ~ on_ring (square c s) x y ->
  oriented_r (square c s) x y = 1%Z /\ IZR c < x < IZR c + IZR s /\ IZR c < y < IZR c + IZR s \/
  oriented_r (square c s) x y = 0%Z /\ ~ (IZR c < x < IZR c + IZR s /\ IZR c < y < IZR c + IZR s).
Proof.
  intros S N. pose proof (IZR_lt _ _ S) as SR. set (F := convolve_two_segments (mk_pt c c, mk_pt (c + s) c) (mk_pt 0 0, mk_pt 0 s)).
  assert (E : square c s = F ++ [mk_pt c (c + s)] /\ exists l, F = mk_pt c (c + s) :: l).
  { unfold F, square, convolve_two_segments, pt_convolve. cbn [fst snd px py app]. rewrite !Z.add_0_r. split; [reflexivity|eexists; reflexivity]. }
  destruct E as [E [l EL]]. assert (NF : ~ on_ring F x y) by (intros O; apply N; rewrite E, EL; apply on_close; rewrite <- EL; exact O).
  assert (OR : oriented_r (square c s) x y = oriented_r F x y) by (rewrite E, EL; apply oriented_close). rewrite OR.
  assert (ST : IZR c <= x <= IZR c + IZR s /\ IZR c <= y <= IZR c + IZR s -> IZR c < x < IZR c + IZR s /\ IZR c < y < IZR c + IZR s).
  { intros [X Y]. assert (~ (x = IZR c \/ x = IZR c + IZR s \/ y = IZR c \/ y = IZR c + IZR s)) by (intros K; apply N; apply square_on; auto). split; split; apply Rnot_le_lt; intros K; apply H; lra. }
  destruct (para_covers (mk_pt c c) (mk_pt (c + s) c) (mk_pt 0 0) (mk_pt 0 s) x y NF) as [[K [al [be [A [B [X Y]]]]]]|[K NO]]; cbn [px py] in *; rewrite ?plus_IZR in *.
  - left. split; [exact K|]. apply ST. assert (0 <= al * IZR s <= IZR s) by (split; [apply Rmult_le_pos; lra|]; rewrite <- (Rmult_1_l (IZR s)) at 2; apply Rmult_le_compat_r; lra).
    assert (0 <= be * IZR s <= IZR s) by (split; [apply Rmult_le_pos; lra|]; rewrite <- (Rmult_1_l (IZR s)) at 2; apply Rmult_le_compat_r; lra). lra.
  - right. split; [exact K|]. intros [X Y]. apply NO. exists ((x - IZR c) / IZR s), ((y - IZR c) / IZR s).
    assert (Q : forall v, IZR c < v < IZR c + IZR s -> 0 <= (v - IZR c) / IZR s <= 1) by (intros v V; split; [apply Rmult_le_pos; [lra|]; left; apply Rinv_0_lt_compat; lra|apply (Rmult_le_reg_r (IZR s)); [lra|]; field_simplify; lra]).
    split; [apply Q; exact X|]. split; [apply Q; exact Y|]. unfold in_para. cbn [px py]. rewrite ?plus_IZR. split; field; lra.
Qed.
(* a square with a hole *)
Definition frame : gpoly := mk_gpoly (square 0 40) [square 10 20].
Lemma frame_on x y : on_edges frame x y <-> on_ring (square 0 40) x y \/ on_ring (square 10 20) x y.
Proof. rewrite on_edges_ring. split; [intros [l [[<-|[<-|[]]] O]]; auto|intros [O|O]; eexists; (split; [|exact O]); [left; reflexivity|right; left; reflexivity]]. Qed.
Lemma frame_inside x y : 0 < x < 40 -> 0 < y < 40 -> (x < 10 \/ 30 < x \/ y < 10 \/ 30 < y) -> poly_inside frame x y.
Proof.
  intros X Y H. assert (N : ~ on_edges frame x y) by (rewrite frame_on, !square_on by lia; lra). split; [exact N|]. rewrite frame_on in N.
  unfold poly_r, frame. cbn [g_outer g_holes]. unfold zsum. cbn [fold_right].
  destruct (square_covers 0 40 x y) as [[-> _]|[_ K]]; [lia|tauto| |lra]. destruct (square_covers 10 20 x y) as [[_ K]|[-> _]]; [lia|tauto|lra|lia].
Qed.
Lemma frame_simple : simple_polygon frame.
Proof.
  split; [|split; [|split]].
  - intros l [<-|[<-|[]]]; eexists; eexists [_; _; _]; reflexivity.
  - intros l x y L N. rewrite frame_on in N. destruct L as [<-|[<-|[]]]; [change (g_outer frame) with (square 0 40); destruct (square_covers 0 40 x y) as [[-> _]|[-> _]]|destruct (square_covers 10 20 x y) as [[-> _]|[-> _]]]; auto; try lia; tauto.
  - intros x y N. rewrite frame_on in N. unfold poly_r, frame. cbn [g_outer g_holes]. unfold zsum. cbn [fold_right].
    destruct (square_covers 0 40 x y) as [[-> K1]|[-> K1]]; [lia|tauto| |]; (destruct (square_covers 10 20 x y) as [[-> K2]|[-> K2]]; [lia|tauto| |]); try lia; exfalso; lra.
  - intros x y O d D. set (t := Rmin (d / 2) 1). assert (T : 0 < t <= 1) by (unfold t; split; [apply Rmin_glb_lt; lra|apply Rmin_r]). assert (TD : t < d) by (pose proof (Rmin_l (d / 2) 1); unfold t; lra).
    rewrite frame_on, !square_on in O by lia.
    assert (M : exists m n, Rabs m <= t /\ Rabs n <= t /\ 0 < x + m < 40 /\ 0 < y + n < 40 /\ (x + m < 10 \/ 30 < x + m \/ y + n < 10 \/ 30 < y + n)).
    { assert (P : Rabs t <= t) by (rewrite Rabs_pos_eq; lra). assert (Q : Rabs (- t) <= t) by (rewrite Rabs_Ropp; exact P). assert (P0 : Rabs 0 <= t) by (rewrite Rabs_R0; lra).
      assert (Z : forall v, 0 <= v <= 40 -> exists m, Rabs m <= t /\ 0 < v + m < 40) by (intros v V; destruct (Rle_dec v 20); [exists t|exists (- t)]; split; auto; lra).
      destruct O as [[X [Y O]]|[X [Y O]]].
      - destruct (Rle_dec x 20) as [LX|LX], (Rle_dec y 20) as [LY|LY]; [exists t, t|exists t, (- t)|exists (- t), t|exists (- t), (- t)]; repeat split; auto; lra.
      - destruct O as [O|[O|[O|O]]]; [exists (- t), 0|exists t, 0|exists 0, (- t)|exists 0, t]; repeat split; auto; lra. }
    destruct M as [m [n [M1 [M2 [M3 [M4 M5]]]]]]. exists (x + m), (y + n). split; [replace (x + m - x) with m by ring; lra|]. split; [replace (y + n - y) with n by ring; lra|]. apply frame_inside; assumption.
Qed.

(* a parallelogram as a closed ring *)
Section Slanted.
Variables (a1 a2 b1 b2 : point).
Let F := convolve_two_segments (a1, a2) (b1, b2).
Definition slanted : gpoly := mk_gpoly (F ++ [pt_convolve a1 b2]) [].
Let ox := IZR (px a1) + IZR (px b1). Let oy := IZR (py a1) + IZR (py b1).
Let ux := IZR (px a2) - IZR (px a1). Let uy := IZR (py a2) - IZR (py a1).
Let vx := IZR (px b2) - IZR (px b1). Let vy := IZR (py b2) - IZR (py b1).
Hypothesis full : ux * vy - uy * vx <> 0.
Lemma slanted_on x y : on_edges slanted x y <-> on_ring F x y.
Proof.
  rewrite on_edges_ring. unfold slanted, rings. cbn [g_outer g_holes]. split.
  - intros [l [[<-|[]] O]]. apply (proj1 (on_close _ _ x y) O).
  - intros O. exists (F ++ [pt_convolve a1 b2]). split; [left; reflexivity|]. apply on_close. exact O.
Qed.
Lemma slanted_oriented x y : oriented_r (F ++ [pt_convolve a1 b2]) x y = oriented_r F x y.
Proof. exact (oriented_close (pt_convolve a1 b2) _ x y). Qed.
Lemma slanted_side x y : on_ring F x y -> exists al be, 0 <= al <= 1 /\ 0 <= be <= 1 /\ (al = 0 \/ al = 1 \/ be = 0 \/ be = 1) /\ in_para a1 a2 b1 b2 x y al be.
Proof.
  intros [e [I [t [T [X Y]]]]]. unfold F, convolve_two_segments in I. cbn [cyc_edges combine app fst snd] in I.
  destruct I as [<-|[<-|[<-|[<-|[]]]]]; cbn [fst snd s_low s_high pt_convolve px py] in *; unfold pt_convolve in *; cbn [px py] in *; rewrite ?plus_IZR in *.
  - exists 0, (1 - t). split; [lra|]. split; [lra|]. split; [auto|]. unfold in_para. split; lra.
  - exists t, 0. split; [lra|]. split; [lra|]. split; [auto|]. unfold in_para. split; lra.
  - exists 1, t. split; [lra|]. split; [lra|]. split; [auto|]. unfold in_para. split; lra.
  - exists (1 - t), 1. split; [lra|]. split; [lra|]. split; [auto|]. unfold in_para. split; lra.
Qed.
Lemma slanted_unique x y al be al' be' : in_para a1 a2 b1 b2 x y al be -> in_para a1 a2 b1 b2 x y al' be' -> al = al' /\ be = be'.
Proof.
  unfold in_para. fold ux uy vx vy. intros [X Y] [X' Y'].
  assert (E1 : (al - al') * ux + (be - be') * vx = 0) by (ring_simplify; lra). assert (E2 : (al - al') * uy + (be - be') * vy = 0) by (ring_simplify; lra).
  assert (D1 : (al - al') * (ux * vy - uy * vx) = 0) by (replace ((al - al') * (ux * vy - uy * vx)) with (((al - al') * ux + (be - be') * vx) * vy - ((al - al') * uy + (be - be') * vy) * vx) by ring; rewrite E1, E2; ring).
  assert (D2 : (be - be') * (ux * vy - uy * vx) = 0) by (replace ((be - be') * (ux * vy - uy * vx)) with (ux * ((al - al') * uy + (be - be') * vy) - uy * ((al - al') * ux + (be - be') * vx)) by ring; rewrite E1, E2; ring).
  apply Rmult_integral in D1, D2. destruct D1 as [D1|D1]; [|contradiction]. destruct D2 as [D2|D2]; [|contradiction]. split; lra.
Qed.
Lemma slanted_inside x y al be : 0 < al < 1 -> 0 < be < 1 -> in_para a1 a2 b1 b2 x y al be -> poly_inside slanted x y.
Proof.
  intros A B P. assert (N : ~ on_ring F x y).
  { intros O. apply slanted_side in O. destruct O as [al' [be' [_ [_ [K P']]]]]. destruct (slanted_unique x y _ _ _ _ P P') as [<- <-]. lra. }
  split; [rewrite slanted_on; exact N|]. unfold poly_r, slanted. cbn [g_outer g_holes]. unfold zsum. cbn [fold_right]. rewrite slanted_oriented.
  destruct (para_covers a1 a2 b1 b2 x y N) as [[K _]|[_ K]]; [unfold F; rewrite K; lia|]. exfalso. apply K. exists al, be. split; [lra|]. split; [lra|exact P].
Qed.
Lemma slanted_simple : simple_polygon slanted.
Proof.
  split; [|split; [|split]].
  - intros l [<-|[]]. eexists; eexists [_; _; _]; reflexivity.
  - intros l x y [<-|[]] N. rewrite slanted_on in N. change (g_outer slanted) with (F ++ [pt_convolve a1 b2]). rewrite slanted_oriented. destruct (para_covers a1 a2 b1 b2 x y N) as [[K _]|[K _]]; unfold F; rewrite K; auto.
  - intros x y N. rewrite slanted_on in N. unfold poly_r, slanted. cbn [g_outer g_holes]. unfold zsum. cbn [fold_right]. rewrite Z.sub_0_r. rewrite slanted_oriented. destruct (para_covers a1 a2 b1 b2 x y N) as [[K _]|[K _]]; unfold F; rewrite K; auto.
  - intros x y O d D. rewrite slanted_on in O. apply slanted_side in O. destruct O as [al [be [A [B [_ [X Y]]]]]]. fold ux uy vx vy in X, Y.
    set (kx := (1 / 2 - al) * ux + (1 / 2 - be) * vx). set (ky := (1 / 2 - al) * uy + (1 / 2 - be) * vy).
    set (m := 1 + Rabs kx + Rabs ky). assert (M : 1 <= m) by (unfold m; pose proof (Rabs_pos kx); pose proof (Rabs_pos ky); lra).
    set (t := Rmin (1 / 2) (d / (2 * m))). assert (T0 : 0 < t) by (unfold t; apply Rmin_glb_lt; [lra|]; apply Rdiv_lt_0_compat; lra).
    assert (T1 : t <= 1 / 2) by apply Rmin_l. assert (T2 : t * m < d).
    { assert (t * m <= d / (2 * m) * m) by (apply Rmult_le_compat_r; [lra|apply Rmin_r]). replace (d / (2 * m) * m) with (d / 2) in H by (field; lra). lra. }
    assert (Q : forall k, Rabs k <= m -> Rabs (t * k) < d) by (intros k K; rewrite Rabs_mult, (Rabs_pos_eq t) by lra; assert (t * Rabs k <= t * m) by (apply Rmult_le_compat_l; lra); lra).
    exists (x + t * kx), (y + t * ky). split; [replace (x + t * kx - x) with (t * kx) by ring; apply Q; unfold m; pose proof (Rabs_pos ky); lra|]. split; [replace (y + t * ky - y) with (t * ky) by ring; apply Q; unfold m; pose proof (Rabs_pos kx); lra|].
    assert (IN : forall v, 0 <= v <= 1 -> 0 < v + t * (1 / 2 - v) < 1).
    { intros v V. replace (v + t * (1 / 2 - v)) with (v * (1 - t) + t / 2) by field. assert (0 <= v * (1 - t)) by (apply Rmult_le_pos; lra). assert (v * (1 - t) <= 1 * (1 - t)) by (apply Rmult_le_compat_r; lra). lra. }
    apply (slanted_inside _ _ (al + t * (1 / 2 - al)) (be + t * (1 / 2 - be))); [apply IN; exact A|apply IN; exact B|]. unfold in_para. fold ux uy vx vy. unfold kx, ky. split; [rewrite X|rewrite Y]; ring.
Qed.
End Slanted.
