(* The figures of convolve_two_polygon_sets cover the Minkowski sum. *)
From Verif Require Import Base Units Outcome Poly90Spec GeoSpec PolySpec PolyCycle SnapSpec ArbSpec ArbOrder ArbConnGeo ArbFormSpec MinkSpec MinkModel MinkWind MinkNest MinkPara.
From Coq Require Import Reals Lra Classical.
Local Open Scope R_scope.

(* ---------- sums of zeros and ones ---------- *)
Lemma zsum_bits {A : Type} (f : A -> Z) l : (forall a, In a l -> f a = 0%Z \/ f a = 1%Z) -> (0 <= zsum f l)%Z /\ ((0 < zsum f l)%Z <-> exists a, In a l /\ f a = 1%Z).
Proof.
  induction l as [|a l IH]; intros H; [split; [cbn; lia|split; [cbn; lia|intros [a [[] _]]]]|].
  unfold zsum. cbn [fold_right]. fold (zsum f l). destruct IH as [I1 I2]; [intros b B; apply H; right; exact B|].
  pose proof (H a (or_introl eq_refl)) as HA. split; [destruct HA as [-> | ->]; lia|]. split.
  - intros P. destruct HA as [E|E]; [|exists a; split; [left; reflexivity|exact E]]. rewrite E in P. destruct (proj1 I2 ltac:(lia)) as [b [B1 B2]]. exists b. split; [right; exact B1|exact B2].
  - intros [b [[<-|B] E]]; [rewrite E; lia|]. assert (0 < zsum f l)%Z by (apply I2; exists b; auto). destruct HA as [-> | ->]; lia.
Qed.

(* ---------- polygons ---------- *)
Lemma on_edges_ring g x y : on_edges g x y <-> exists l, In l (rings g) /\ on_ring l x y.
Proof.
  unfold on_edges, on_ring. split; [intros [l [e [L [E O]]]]; exists l; split; [exact L|exists e; auto]|intros [l [L [e [E O]]]]; exists l, e; auto].
Qed.
Lemma oriented_nz l x y : oriented_r l x y <> 0%Z <-> winding_r l x y <> 0%Z.
Proof. unfold oriented_r. destruct (0 <? shoelace2 l)%Z; lia. Qed.
Lemma inside_rings g x y : simple_polygon g -> ~ on_edges g x y ->
  (poly_r (g_outer g) (g_holes g) x y = 1%Z <-> winding_r (g_outer g) x y <> 0%Z /\ forall h, In h (g_holes g) -> winding_r h x y = 0%Z).
Proof.
  intros [_ [S1 [S2 _]]] N.
  assert (SO : oriented_r (g_outer g) x y = 0%Z \/ oriented_r (g_outer g) x y = 1%Z) by (apply S1; [left; reflexivity|exact N]).
  assert (SH : forall h, In h (g_holes g) -> oriented_r h x y = 0%Z \/ oriented_r h x y = 1%Z) by (intros h H; apply S1; [right; exact H|exact N]).
  destruct (zsum_bits (fun h => oriented_r h x y) (g_holes g) SH) as [P1 P2]. unfold poly_r. split.
  - intros E. split; [apply oriented_nz; lia|]. intros h H. destruct (Z.eq_dec (winding_r h x y) 0) as [W|W]; [exact W|]. exfalso.
    apply oriented_nz in W. assert (0 < zsum (fun h => oriented_r h x y) (g_holes g))%Z by (apply P2; exists h; split; [exact H|destruct (SH h H); [contradiction|assumption]]). lia.
  - intros [W H]. apply oriented_nz in W.
    assert (~ (0 < zsum (fun h => oriented_r h x y) (g_holes g))%Z).
    { intros K. apply P2 in K. destruct K as [h [I E]]. apply H in I. assert (oriented_r h x y <> 0%Z) as NZ by lia. apply oriented_nz in NZ. contradiction. }
    lia.
Qed.
(* near a place off the edges nothing changes *)
Lemma any_gap a b x y : ~ on_r (mk_seg a b) x y -> exists d, 0 < d /\ free (mk_seg a b) x y d.
Proof.
  intros N. assert (C : ordered (mk_seg a b) \/ ordered (mk_seg b a) \/ a = b).
  { rewrite !ordered_iff. cbn [s_low s_high]. destruct a as [ax ay], b as [bx b_y]. cbn [px py]. destruct (Z.lt_trichotomy ax bx) as [|[->|]]; [lia| |lia]. destruct (Z.lt_trichotomy ay b_y) as [|[->|]]; [lia| |lia]. right; right. reflexivity. }
  destruct C as [O|[O|E]].
  - apply seg_gap; assumption.
  - destruct (seg_gap (mk_seg b a) x y O) as [d [D F]]; [intros K; apply N; apply on_swap; exact K|]. exists d. split; [exact D|]. intros x' y' K. apply F. apply on_swap. exact K.
  - subst b. assert (K : forall x' y', on_r (mk_seg a a) x' y' -> x' = IZR (px a) /\ y' = IZR (py a)) by (intros x' y' [t [T [E1 E2]]]; cbn [s_low s_high] in *; split; lra).
    destruct (Req_dec x (IZR (px a))) as [X|X].
    + destruct (Req_dec y (IZR (py a))) as [Y|Y]; [exfalso; apply N; rewrite X, Y; apply (on_low (mk_seg a a))|].
      exists (Rabs (IZR (py a) - y)). split; [apply Rabs_pos_lt; lra|]. intros x' y' O [_ B]. apply K in O. destruct O as [_ ->]. lra.
    + exists (Rabs (IZR (px a) - x)). split; [apply Rabs_pos_lt; lra|]. intros x' y' O [B _]. apply K in O. destruct O as [-> _]. lra.
Qed.
Lemma edges_gap (es : list (point * point)) x y : (forall e, In e es -> ~ on_r (mk_seg (fst e) (snd e)) x y) -> exists d, 0 < d /\ forall e, In e es -> free (mk_seg (fst e) (snd e)) x y d.
Proof.
  induction es as [|e es IH]; intros N; [exists 1; split; [lra|]; intros e []|]. destruct IH as [d [D F]]; [intros f I; apply N; right; exact I|].
  destruct (any_gap (fst e) (snd e) x y (N e (or_introl eq_refl))) as [d' [D' F']]. exists (Rmin d d'). pose proof (Rmin_l d d') as M1. pose proof (Rmin_r d d') as M2. split; [apply Rmin_glb_lt; assumption|].
  intros f [<-|I] x' y' ON [A B]; [apply (F' x' y' ON); lra|apply (F f I x' y' ON); lra].
Qed.
Lemma poly_gap g x y : ~ on_edges g x y -> exists d, 0 < d /\ forall x' y', Rabs (x' - x) < d -> Rabs (y' - y) < d -> ~ on_edges g x' y'.
Proof.
  intros N. destruct (edges_gap (flat_map cyc_edges (rings g)) x y) as [d [D F]].
  - intros e I O. apply in_flat_map in I. destruct I as [l [L E]]. apply N. exists l, e. auto.
  - exists d. split; [exact D|]. intros x' y' A B [l [e [L [E O]]]]. apply (F e) with (x' := x') (y' := y'); [apply in_flat_map; exists l; auto|exact O|auto].
Qed.
Lemma box_convex (x d x1 x2 t : R) : 0 <= t <= 1 -> Rabs (x1 - x) < d -> Rabs (x2 - x) < d -> Rabs (x1 + t * (x2 - x1) - x) < d.
Proof.
  intros T A B. apply Rabs_def2 in A, B. apply Rabs_def1.
  - assert (0 <= t * (d - (x2 - x))) by (apply Rmult_le_pos; lra). assert (0 <= (1 - t) * (d - (x1 - x))) by (apply Rmult_le_pos; lra).
    destruct (Req_dec t 1) as [->|NE]; [lra|]. assert (0 < (1 - t) * (d - (x1 - x))) by (apply Rmult_lt_0_compat; lra). lra.
  - assert (0 <= t * (d + (x2 - x))) by (apply Rmult_le_pos; lra). assert (0 <= (1 - t) * (d + (x1 - x))) by (apply Rmult_le_pos; lra).
    destruct (Req_dec t 1) as [->|NE]; [lra|]. assert (0 < (1 - t) * (d + (x1 - x))) by (apply Rmult_lt_0_compat; lra). lra.
Qed.
Lemma interior_box g x y : region g x y -> ~ on_edges g x y -> exists d, 0 < d /\ forall x' y', Rabs (x' - x) < d -> Rabs (y' - y) < d -> poly_inside g x' y'.
Proof.
  intros R N. destruct (poly_gap g x y N) as [d [D F]]. exists d. split; [exact D|]. intros x' y' A B. split; [apply F; assumption|].
  destruct (R d D) as [x0 [y0 [A0 [B0 [_ E]]]]]. rewrite <- E.
  assert (W : forall l, In l (rings g) -> winding_r l x' y' = winding_r l x0 y0).
  { intros l L. apply winding_const. intros t T O. apply (F (x' + t * (x0 - x')) (y' + t * (y0 - y'))).
    - apply box_convex; assumption.
    - apply box_convex; assumption.
    - apply on_edges_ring. exists l. auto. }
  unfold poly_r, oriented_r. rewrite (W (g_outer g)) by (left; reflexivity). f_equal. apply zsum_ext. intros h H. rewrite (W h) by (right; exact H). reflexivity.
Qed.

(* ---------- the sum of two polygons whose edges do not meet ---------- *)
Section Pair.
Variables (g h : gpoly) (a0 b0 : point) (ta tb : list point) (X Y : R).
Hypothesis Sg : simple_polygon g.
Hypothesis Sh : simple_polygon h.
Hypothesis Eg : g_outer g = a0 :: ta.
Hypothesis Eh : g_outer h = b0 :: tb.
Hypothesis apart : forall x y, on_edges g x y -> ~ on_edges h (X - x) (Y - y).
Let ax := IZR (px a0). Let ay := IZR (py a0). Let bx := IZR (px b0). Let b_y := IZR (py b0).
Lemma apart_rings l m : In l (rings g) -> In m (rings h) -> forall x y, on_ring l x y -> ~ on_ring m (X - x) (Y - y).
Proof. intros L M x y O O'. apply (apart x y); apply on_edges_ring; [exists l|exists m]; auto. Qed.
Lemma ring_cons l : In l (rings g) \/ In l (rings h) -> exists p t, l = p :: t.
Proof. intros [I|I]; [destruct (proj1 Sg l I) as [p [m ->]]|destruct (proj1 Sh l I) as [p [m ->]]]; exists p, (m ++ [p]); reflexivity. Qed.
Lemma pair_inside x y : poly_inside g x y -> poly_inside h (X - x) (Y - y) ->
  poly_r (g_outer g) (g_holes g) (X - bx) (Y - b_y) = 1%Z \/ poly_r (g_outer h) (g_holes h) (X - ax) (Y - ay) = 1%Z.
Proof.
  intros [Ng Pg] [Nh Ph]. apply (inside_rings g x y Sg Ng) in Pg. apply (inside_rings h _ _ Sh Nh) in Ph. destruct Pg as [WG HG], Ph as [WH HH].
  assert (OG : In (g_outer g) (rings g)) by (left; reflexivity). assert (OH : In (g_outer h) (rings h)) by (left; reflexivity).
  pose proof (ring_curve (g_outer g) a0 ta Eg) as CG. pose proof (turned_curve X Y (g_outer h) b0 tb Eh) as CH. fold ax ay in CG. fold bx b_y in CH.
  assert (NG : forall l, In l (rings g) -> ~ on_ring l x y) by (intros l L O; apply Ng, on_edges_ring; exists l; auto).
  assert (NH : forall l, In l (rings h) -> ~ on_ring l (X - x) (Y - y)) by (intros l L O; apply Nh, on_edges_ring; exists l; auto).
  pose proof (apart_rings _ _ OG OH) as AP.
  assert (BG : ~ on_edges h (X - ax) (Y - ay)) by (apply apart, on_edges_ring; exists (g_outer g); split; [exact OG|apply (c_base _ _ _ _ CG)]).
  assert (BH : ~ on_edges g (X - bx) (Y - b_y)).
  { intros O. apply (apart _ _ O). apply on_edges_ring. exists (g_outer h). split; [exact OH|apply (c_base _ _ _ _ CH)]. }
  destruct (first_hit _ _ _ _ _ _ _ _ CG CH AP x y (NG _ OG) (NH _ OH) WG) as [E|E].
  - right. apply (inside_rings h _ _ Sh BG). split; [rewrite E; exact WH|]. intros k K. destruct (Z.eq_dec (winding_r k (X - ax) (Y - ay)) 0) as [Z|Z]; [exact Z|]. exfalso.
    assert (KR : In k (rings h)) by (right; exact K). destruct (ring_cons k (or_intror KR)) as [p [t Ek]].
    pose proof (turned_curve X Y k p t Ek) as CK. apply (around _ _ _ _ _ _ _ _ CG CK (apart_rings _ _ OG KR) x y (NG _ OG) (NH _ KR) WG Z). apply HH. exact K.
  - left. apply (inside_rings g _ _ Sg BH). split; [rewrite E; exact WG|]. intros k K. destruct (Z.eq_dec (winding_r k (X - bx) (Y - b_y)) 0) as [Z|Z]; [exact Z|]. exfalso.
    assert (KR : In k (rings g)) by (right; exact K). destruct (ring_cons k (or_introl KR)) as [p [t Ek]].
    pose proof (ring_curve k p t Ek) as CK.
    assert (AP' : forall u v, on_ring (g_outer h) (X - u) (Y - v) -> ~ on_ring k u v) by (intros u v O O'; apply (apart_rings k (g_outer h) KR OH u v O' O)).
    apply (around _ _ _ _ _ _ _ _ CH CK AP' x y (NH _ OH) (NG _ KR) WH Z). apply HG. exact K.
Qed.
Lemma pair_covers x1 y1 x2 y2 : region g x1 y1 -> region h x2 y2 -> X = x1 + x2 -> Y = y1 + y2 ->
  poly_r (g_outer g) (g_holes g) (X - bx) (Y - b_y) = 1%Z \/ poly_r (g_outer h) (g_holes h) (X - ax) (Y - ay) = 1%Z.
Proof.
  intros R1 R2 EX EY. destruct (classic (on_edges g x1 y1)) as [O|N].
  - assert (N : ~ on_edges h x2 y2) by (replace x2 with (X - x1) by lra; replace y2 with (Y - y1) by lra; apply apart; exact O).
    destruct (interior_box h x2 y2 R2 N) as [d [D B]]. destruct (R1 d D) as [x [y [A1 [A2 I]]]]. apply (pair_inside x y I). apply B.
    + replace (X - x - x2) with (- (x - x1)) by lra. rewrite Rabs_Ropp. exact A1.
    + replace (Y - y - y2) with (- (y - y1)) by lra. rewrite Rabs_Ropp. exact A2.
  - destruct (interior_box g x1 y1 R1 N) as [d [D B]]. destruct (R2 d D) as [x [y [A1 [A2 I]]]]. apply (pair_inside (X - x) (Y - y)).
    + apply B; [replace (X - x - x1) with (- (x - x2)) by lra|replace (Y - y - y1) with (- (y - y2)) by lra]; rewrite Rabs_Ropp; assumption.
    + replace (X - (X - x)) with x by ring. replace (Y - (Y - y)) with y by ring. exact I.
Qed.
End Pair.

(* ---------- the figures ---------- *)
Definition para (ea eb : point * point) : gpoly := mk_gpoly (convolve_two_segments eb ea) [].
Lemma inner_edges ea : forall b b0, inner_loop ea b0 b = map (para ea) (path_edges (b0 :: b)).
Proof. induction b as [|q b IH]; intros b0; [reflexivity|]. cbn [inner_loop path_edges map]. rewrite IH. reflexivity. Qed.
Lemma outer_edges b0 b : forall a a0, outer_loop a0 a b0 b = flat_map (fun ea => map (para ea) (path_edges (b0 :: b))) (path_edges (a0 :: a)).
Proof. induction a as [|p a IH]; intros a0; [reflexivity|]. cbn [outer_loop path_edges flat_map]. rewrite IH, inner_edges. reflexivity. Qed.
Lemma in_sequences a b f : In f (convolve_two_point_sequences a b) <-> exists ea eb, In ea (path_edges a) /\ In eb (path_edges b) /\ f = para ea eb.
Proof.
  destruct a as [|a0 a], b as [|b0 b]; [split; [intros []|intros [ea [eb [[] _]]]]|split; [intros []|intros [ea [eb [[] _]]]]|split; [intros []|intros [ea [eb [_ [[] _]]]]]|].
  cbn [convolve_two_point_sequences]. rewrite outer_edges, in_flat_map. split.
  - intros [ea [I J]]. apply in_map_iff in J. destruct J as [eb [<- J]]. exists ea, eb. auto.
  - intros [ea [eb [I [J ->]]]]. exists ea. split; [exact I|]. apply in_map. exact J.
Qed.
Lemma in_with_polygons a hs f : In f (convolve_point_sequence_with_polygons a hs) <->
  exists h lb ea eb, In h hs /\ In lb (rings h) /\ In ea (path_edges a) /\ In eb (path_edges lb) /\ f = para ea eb.
Proof.
  unfold convolve_point_sequence_with_polygons. rewrite in_flat_map. split.
  - intros [h [H I]]. apply in_app_or in I. destruct I as [I|I].
    + apply in_sequences in I. destruct I as [ea [eb [A [B E]]]]. exists h, (g_outer h), ea, eb. split; [exact H|]. split; [left; reflexivity|auto].
    + apply in_flat_map in I. destruct I as [l [L I]]. apply in_sequences in I. destruct I as [ea [eb [A [B E]]]]. exists h, l, ea, eb. split; [exact H|]. split; [right; exact L|auto].
  - intros [h [lb [ea [eb [H [L [A [B E]]]]]]]]. exists h. split; [exact H|]. apply in_or_app. destruct L as [<-|L].
    + left. apply in_sequences. exists ea, eb. auto.
    + right. apply in_flat_map. exists lb. split; [exact L|]. apply in_sequences. exists ea, eb. auto.
Qed.
Lemma shifted_ok g hs : forall s, shifted g hs = Ok s -> forall f, In f s <->
  exists h a0 b0 ta tb, In h hs /\ g_outer g = a0 :: ta /\ g_outer h = b0 :: tb /\ (f = poly_convolve g b0 \/ f = poly_convolve h a0).
Proof.
  induction hs as [|h hs IH]; intros s E f; cbn [shifted] in E.
  - injection E as <-. split; [intros []|intros [h [a0 [b0 [ta [tb [[] _]]]]]]].
  - destruct (g_outer g) as [|a0 ta] eqn:Eg; [discriminate|]. destruct (g_outer h) as [|b0 tb] eqn:Eh; [discriminate|].
    destruct (shifted g hs) as [r| |] eqn:R; cbn [obind] in E; try discriminate. injection E as <-. split.
    + intros [<-|[<-|I]]; [exists h, a0, b0, ta, tb; split; [left; reflexivity|auto]|exists h, a0, b0, ta, tb; split; [left; reflexivity|auto]|].
      apply (IH r eq_refl) in I. destruct I as [k [a [b [t [t' [K [E1 [E2 E3]]]]]]]]. exists k, a, b, t, t'. split; [right; exact K|auto].
    + intros [k [a [b [t [t' [[<-|K] [E1 [E2 E3]]]]]]]].
      * assert (a = a0) by congruence. assert (b = b0) by congruence. subst a b. destruct E3 as [->| ->]; [left; reflexivity|right; left; reflexivity].
      * right; right. apply (IH r eq_refl). exists k, a, b, t, t'. auto.
Qed.
Lemma figures hs : forall gs fs, convolve_polygons gs hs = Ok fs -> forall f, In f fs <->
  (exists g h la lb ea eb, In g gs /\ In h hs /\ In la (rings g) /\ In lb (rings h) /\ In ea (path_edges la) /\ In eb (path_edges lb) /\ f = para ea eb) \/
  (exists g h a0 b0 ta tb, In g gs /\ In h hs /\ g_outer g = a0 :: ta /\ g_outer h = b0 :: tb /\ (f = poly_convolve g b0 \/ f = poly_convolve h a0)).
Proof.
  induction gs as [|g gs IH]; intros fs E f; cbn [convolve_polygons] in E.
  - injection E as <-. split; [intros []|]. intros [[g [h [la [lb [ea [eb [[] _]]]]]]]|[g [h [a0 [b0 [ta [tb [[] _]]]]]]]].
  - destruct (shifted g hs) as [s| |] eqn:S; cbn [obind] in E; try discriminate. destruct (convolve_polygons gs hs) as [r| |] eqn:R; cbn [obind] in E; try discriminate. injection E as <-.
    rewrite !in_app_iff, in_with_polygons, in_flat_map, (shifted_ok g hs s S f), (IH r eq_refl f). split.
    + intros [H|[H|[H|H]]].
      * destruct H as [h [lb [ea [eb [H1 [H2 [H3 [H4 H5]]]]]]]]. left. exists g, h, (g_outer g), lb, ea, eb. split; [left; reflexivity|]. split; [exact H1|]. split; [left; reflexivity|auto].
      * destruct H as [la [L H]]. apply in_with_polygons in H. destruct H as [h [lb [ea [eb [H1 [H2 [H3 [H4 H5]]]]]]]]. left. exists g, h, la, lb, ea, eb. split; [left; reflexivity|]. split; [exact H1|]. split; [right; exact L|auto].
      * destruct H as [h [a0 [b0 [ta [tb [H1 H2]]]]]]. right. exists g, h, a0, b0, ta, tb. split; [left; reflexivity|auto].
      * destruct H as [[k [h [la [lb [ea [eb [K H]]]]]]]|[k [h [a0 [b0 [ta [tb [K H]]]]]]]]; [left; exists k, h, la, lb, ea, eb; split; [right; exact K|exact H]|right; exists k, h, a0, b0, ta, tb; split; [right; exact K|exact H]].
    + intros [[k [h [la [lb [ea [eb [[<-|K] [H [L H']]]]]]]]]|[k [h [a0 [b0 [ta [tb [[<-|K] H]]]]]]]].
      * destruct L as [<-|L]; [left; exists h, lb, ea, eb; auto|]. right; left. exists la. split; [exact L|]. apply in_with_polygons. exists h, lb, ea, eb. auto.
      * right; right; right. left. exists k, h, la, lb, ea, eb. auto.
      * right; right; left. exists h, a0, b0, ta, tb. exact H.
      * right; right; right. right. exists k, h, a0, b0, ta, tb. auto.
Qed.
Lemma figures_defined hs gs : (forall g, In g gs -> simple_polygon g) -> (forall h, In h hs -> simple_polygon h) -> exists fs, convolve_polygons gs hs = Ok fs.
Proof.
  intros SG SH. induction gs as [|g gs IH]; [exists []; reflexivity|]. cbn [convolve_polygons].
  assert (E : exists s, shifted g hs = Ok s).
  { destruct (proj1 (SG g (or_introl eq_refl)) (g_outer g) (or_introl eq_refl)) as [a [m Ea]]. clear IH. induction hs as [|h hs IH]; [exists []; reflexivity|]. cbn [shifted]. rewrite Ea.
    destruct (proj1 (SH h (or_introl eq_refl)) (g_outer h) (or_introl eq_refl)) as [b [m' Eb]]. rewrite Eb.
    destruct IH as [s Es]; [intros k K; apply SH; right; exact K|]. rewrite Es. cbn [obind]. eexists. reflexivity. }
  destruct E as [s ->]. cbn [obind]. destruct IH as [r ->]; [intros k K; apply SG; right; exact K|]. cbn [obind]. eexists. reflexivity.
Qed.
(* a closed ring: its steps are its edges *)
Lemma path_snoc : forall l p q, combine (p :: l) (l ++ [q]) = path_edges (p :: l ++ [q]).
Proof. induction l as [|a l IH]; intros p q; [reflexivity|]. cbn [app combine path_edges]. f_equal. apply IH. Qed.
Lemma path_app : forall l p q r, path_edges ((p :: l ++ [q]) ++ [r]) = path_edges (p :: l ++ [q]) ++ [(q, r)].
Proof. induction l as [|a l IH]; intros p q r; [reflexivity|]. cbn [app path_edges] in *. f_equal. apply IH. Qed.
Lemma closed_on l x y : closed_ring l -> on_ring l x y -> exists e, In e (path_edges l) /\ on_r (mk_seg (fst e) (snd e)) x y.
Proof.
  intros [p [m ->]] [e [I O]]. unfold cyc_edges in I. rewrite path_snoc in I. change (p :: (m ++ [p]) ++ [p]) with ((p :: m ++ [p]) ++ [p]) in I. rewrite path_app in I.
  apply in_app_or in I. destruct I as [I|[<-|[]]]; [exists e; auto|].
  assert (exists q t, m ++ [p] = q :: t) as [q [t E]] by (destruct m as [|q m]; [exists p, []; reflexivity|exists q, (m ++ [p]); reflexivity]).
  exists (p, q). rewrite E. split; [left; reflexivity|]. cbn [fst snd] in *. destruct O as [s [_ [E1 E2]]]. cbn [s_low s_high] in *.
  replace x with (IZR (px p)) by lra. replace y with (IZR (py p)) by lra. apply (on_low (mk_seg p q)).
Qed.
Lemma path_on l e x y : In e (path_edges l) -> on_r (mk_seg (fst e) (snd e)) x y -> closed_ring l -> on_ring l x y.
Proof.
  intros I O [p [m ->]]. exists e. split; [|exact O]. unfold cyc_edges. rewrite path_snoc. change (p :: (m ++ [p]) ++ [p]) with ((p :: m ++ [p]) ++ [p]). rewrite path_app. apply in_or_app. left. exact I.
Qed.

(* ---------- the theorem ---------- *)
Section Sum.
Variables (gs hs fs : list gpoly) (x y : R).
Hypothesis SG : forall g, In g gs -> simple_polygon g.
Hypothesis SH : forall h, In h hs -> simple_polygon h.
Hypothesis FS : convolve_polygons gs hs = Ok fs.
Hypothesis off : forall s, In s (polys_segs fs) -> ~ on_r s x y.
Lemma off_ring f l : In f fs -> In l (rings f) -> ~ on_ring l x y.
Proof.
  intros I L [e [E O]]. apply (off (mk_seg (fst e) (snd e))); [|exact O]. unfold polys_segs. apply in_flat_map. exists l. split; [apply in_flat_map; exists f; auto|].
  apply (in_map (fun e => mk_seg (fst e) (snd e))). exact E.
Qed.
Lemma off_edges f : In f fs -> ~ on_edges f x y.
Proof. intros I O. apply on_edges_ring in O. destruct O as [l [L O]]. apply (off_ring f l I L O). Qed.
Lemma shift_edges g p : on_edges (poly_convolve g p) x y <-> on_edges g (x - IZR (px p)) (y - IZR (py p)).
Proof.
  rewrite !on_edges_ring. split.
  - intros [l [[<-|L] O]].
    + cbn [poly_convolve g_outer] in O. apply shift_ring in O. exists (g_outer g). split; [left; reflexivity|exact O].
    + cbn [poly_convolve g_holes] in L. apply in_map_iff in L. destruct L as [h [<- H]]. apply shift_ring in O. exists h. split; [right; exact H|exact O].
  - intros [l [[<-|L] O]].
    + exists (ring_convolve (g_outer g) p). split; [left; reflexivity|apply shift_ring; exact O].
    + exists (ring_convolve l p). split; [right; cbn [poly_convolve g_holes]; apply (in_map (fun h => ring_convolve h p)); exact L|apply shift_ring; exact O].
Qed.
(* what a figure covers *)
Lemma figure_bit f : In f fs -> poly_r (g_outer f) (g_holes f) x y = 0%Z \/ poly_r (g_outer f) (g_holes f) x y = 1%Z.
Proof.
  intros I. pose proof (off_edges f I) as N. pose proof (off_ring f) as NR. pose proof (proj1 (figures hs gs fs FS f) I) as [[g [h [la [lb [ea [eb [_ [_ [_ [_ [_ [_ ->]]]]]]]]]]]]|[g [h [a0 [b0 [ta [tb [G [H [Eg [Eh [->| ->]]]]]]]]]]]].
  - unfold poly_r, para. cbn [g_outer g_holes]. change (zsum (fun h0 => oriented_r h0 x y) []) with 0%Z. rewrite Z.sub_0_r.
    destruct ea as [a1 a2], eb as [b1 b2]. destruct (para_covers b1 b2 a1 a2 x y) as [[-> _]|[-> _]]; [apply (NR _ I); left; reflexivity|right; reflexivity|left; reflexivity].
  - rewrite shift_poly. destruct (SG g G) as [_ [_ [S _]]]. apply S. intros O. apply N. apply shift_edges. exact O.
  - rewrite shift_poly. destruct (SH h H) as [_ [_ [S _]]]. apply S. intros O. apply N. apply shift_edges. exact O.
Qed.
Lemma region_of_interior g u v : poly_inside g u v -> region g u v.
Proof. intros I d D. exists u, v. rewrite !Rminus_diag_eq, Rabs_R0 by reflexivity. auto. Qed.
Lemma covered_sum f : In f fs -> poly_r (g_outer f) (g_holes f) x y = 1%Z -> minkowski_sum gs hs x y.
Proof.
  intros I E. pose proof (off_edges f I) as N. pose proof (off_ring f) as NR. pose proof (proj1 (figures hs gs fs FS f) I) as [[g [h [la [lb [ea [eb [G [H [LA [LB [EA [EB ->]]]]]]]]]]]]|[g [h [a0 [b0 [ta [tb [G [H [Eg [Eh [->| ->]]]]]]]]]]]].
  - unfold poly_r, para in E. cbn [g_outer g_holes] in E. change (zsum (fun h0 => oriented_r h0 x y) []) with 0%Z in E. rewrite Z.sub_0_r in E.
    destruct ea as [a1 a2], eb as [b1 b2]. destruct (para_covers b1 b2 a1 a2 x y) as [[_ [al [be [A [B [X Y]]]]]]|[E' _]]; [apply (NR _ I); left; reflexivity| |congruence].
    set (u := IZR (px a1) + be * (IZR (px a2) - IZR (px a1))). set (v := IZR (py a1) + be * (IZR (py a2) - IZR (py a1))).
    set (u' := IZR (px b1) + al * (IZR (px b2) - IZR (px b1))). set (v' := IZR (py b1) + al * (IZR (py b2) - IZR (py b1))).
    assert (O1 : on_edges g u v) by (apply on_edges_ring; exists la; split; [exact LA|]; apply (path_on la (a1, a2)); [exact EA|exists be; cbn [fst snd s_low s_high]; unfold u, v; auto|apply (proj1 (SG g G)); exact LA]).
    assert (O2 : on_edges h u' v') by (apply on_edges_ring; exists lb; split; [exact LB|]; apply (path_on lb (b1, b2)); [exact EB|exists al; cbn [fst snd s_low s_high]; unfold u', v'; auto|apply (proj1 (SH h H)); exact LB]).
    exists g, h, u, v, u', v'. split; [exact G|]. split; [exact H|]. split; [destruct (SG g G) as [_ [_ [_ S]]]; apply S; exact O1|]. split; [destruct (SH h H) as [_ [_ [_ S]]]; apply S; exact O2|].
    unfold u, v, u', v'. split; lra.
  - rewrite shift_poly in E. exists g, h, (x - IZR (px b0)), (y - IZR (py b0)), (IZR (px b0)), (IZR (py b0)). split; [exact G|]. split; [exact H|]. split; [|split; [|split; ring]].
    + apply region_of_interior. split; [|exact E]. intros O. apply N. apply shift_edges. exact O.
    + destruct (SH h H) as [_ [_ [_ S]]]. apply S. apply on_edges_ring. exists (g_outer h). split; [left; reflexivity|]. apply on_ring_vertex. rewrite Eh. left. reflexivity.
  - rewrite shift_poly in E. exists g, h, (IZR (px a0)), (IZR (py a0)), (x - IZR (px a0)), (y - IZR (py a0)). split; [exact G|]. split; [exact H|]. split; [|split; [|split; ring]].
    + destruct (SG g G) as [_ [_ [_ S]]]. apply S. apply on_edges_ring. exists (g_outer g). split; [left; reflexivity|]. apply on_ring_vertex. rewrite Eg. left. reflexivity.
    + apply region_of_interior. split; [|exact E]. intros O. apply N. apply shift_edges. exact O.
Qed.
Lemma sum_covered : minkowski_sum gs hs x y -> exists f, In f fs /\ poly_r (g_outer f) (g_holes f) x y = 1%Z.
Proof.
  intros [g [h [x1 [y1 [x2 [y2 [G [H [R1 [R2 [X Y]]]]]]]]]]].
  destruct (classic (exists u v, on_edges g u v /\ on_edges h (x - u) (y - v))) as [[u [v [O1 O2]]]|AP].
  - apply on_edges_ring in O1, O2. destruct O1 as [la [LA O1]], O2 as [lb [LB O2]].
    apply closed_on in O1; [|apply (proj1 (SG g G)); exact LA]. apply closed_on in O2; [|apply (proj1 (SH h H)); exact LB].
    destruct O1 as [[a1 a2] [EA [be [B [U V]]]]], O2 as [[b1 b2] [EB [al [A [U' V']]]]]. cbn [fst snd s_low s_high] in *.
    assert (I : In (para (a1, a2) (b1, b2)) fs) by (apply (figures hs gs fs FS); left; exists g, h, la, lb, (a1, a2), (b1, b2); auto 10).
    exists (para (a1, a2) (b1, b2)). split; [exact I|]. unfold poly_r, para. cbn [g_outer g_holes]. change (zsum (fun h0 => oriented_r h0 x y) []) with 0%Z. rewrite Z.sub_0_r.
    destruct (para_covers b1 b2 a1 a2 x y) as [[E _]|[_ E]]; [apply (off_ring _ _ I); left; reflexivity|exact E|]. exfalso. apply E.
    exists al, be. split; [exact A|]. split; [exact B|]. unfold in_para. split; lra.
  - destruct (proj1 (SG g G) (g_outer g) (or_introl eq_refl)) as [a0 [ma Eg]]. destruct (proj1 (SH h H) (g_outer h) (or_introl eq_refl)) as [b0 [mb Eh]].
    assert (APART : forall u v, on_edges g u v -> ~ on_edges h (x - u) (y - v)) by (intros u v O1 O2; apply AP; exists u, v; auto).
    destruct (pair_covers g h a0 b0 (ma ++ [a0]) (mb ++ [b0]) x y (SG g G) (SH h H) Eg Eh APART x1 y1 x2 y2 R1 R2 X Y) as [E|E].
    + exists (poly_convolve g b0). split; [apply (figures hs gs fs FS); right; exists g, h, a0, b0, (ma ++ [a0]), (mb ++ [b0]); auto 10|]. rewrite shift_poly. exact E.
    + exists (poly_convolve h a0). split; [apply (figures hs gs fs FS); right; exists g, h, a0, b0, (ma ++ [a0]), (mb ++ [b0]); auto 10|]. rewrite shift_poly. exact E.
Qed.
Theorem sum_main : (0 < polys_r fs x y)%Z <-> minkowski_sum gs hs x y.
Proof.
  unfold polys_r. rewrite (proj2 (zsum_bits (fun g => poly_r (g_outer g) (g_holes g) x y) fs figure_bit)). split.
  - intros [f [I E]]. apply (covered_sum f I E).
  - apply sum_covered.
Qed.
End Sum.
