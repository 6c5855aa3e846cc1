(* C76: the Minkowski sum of polygon sets. *)
From Verif Require Import Base Units Outcome Poly90Spec Poly90Model Poly90Proofs Poly90Vertices GeoSpec PolySpec PolyCycle SnapSpec ArbSpec ArbModel ArbSetModel P_Arb ArbFormSpec ArbFormModel P_ArbForm MinkSpec MinkModel MinkWind MinkNest MinkPara MinkMain MinkCase.
From Coq Require Import Reals Lra.

(* The figures that are inserted into the result cover a place off their edges if and
   only if it is the sum of a place of one of the first polygons and a place of one of
   the second polygons. The polygons may have holes, and need not be convex. *)
Theorem C76_sum : forall gs hs fs x y, (forall g, In g (gs ++ hs) -> simple_polygon g) -> convolve_polygons gs hs = Ok fs ->
  (forall s, In s (polys_segs fs) -> ~ on_r s x y) ->
  (0 < polys_r fs x y <-> minkowski_sum gs hs x y).
Proof.
  intros gs hs fs x y S E O. apply sum_main; [intros g G; apply S, in_or_app; left; exact G|intros h H; apply S, in_or_app; right; exact H|exact E|exact O].
Qed.
Print Assumptions C76_sum.
(* The computation never reads the first point of a polygon without points. *)
Theorem C76_defined : forall gs hs, (forall g, In g (gs ++ hs) -> simple_polygon g) -> exists fs, convolve_polygons gs hs = Ok fs.
Proof.
  intros gs hs S. apply figures_defined; [intros g G; apply S, in_or_app; left; exact G|intros h H; apply S, in_or_app; right; exact H].
Qed.
Print Assumptions C76_defined.
Lemma convolve_comm p q : pt_convolve p q = pt_convolve q p.
Proof. unfold pt_convolve. f_equal; lia. Qed.
Lemma path_in_cyc l e : closed_ring l -> In e (path_edges l) -> In e (cyc_edges l).
Proof. intros [p [m ->]] I. unfold cyc_edges. rewrite path_snoc. change (p :: (m ++ [p]) ++ [p]) with ((p :: m ++ [p]) ++ [p]). rewrite path_app. apply in_or_app. left. exact I. Qed.
Lemma convolve_edges l v e : In e (cyc_edges (ring_convolve l v)) -> exists e0, In e0 (cyc_edges l) /\ e = (pt_convolve (fst e0) v, pt_convolve (snd e0) v).
Proof. unfold ring_convolve. rewrite cyc_map. intros I. apply in_map_iff in I. destruct I as [e0 [<- I]]. exists e0. auto. Qed.
(* Each edge of a figure is an edge of one of the polygons, moved by a vertex of a
   polygon of the other list. *)
Theorem C76_edges : forall gs hs fs s, (forall g, In g (gs ++ hs) -> simple_polygon g) -> convolve_polygons gs hs = Ok fs -> In s (polys_segs fs) ->
  exists g h l m e v, (In g gs /\ In h hs \/ In g hs /\ In h gs) /\ In l (rings g) /\ In m (rings h) /\ In e (cyc_edges l) /\ In v m /\
    (s = mk_seg (pt_convolve (fst e) v) (pt_convolve (snd e) v) \/ s = mk_seg (pt_convolve (snd e) v) (pt_convolve (fst e) v)).
Proof.
  intros gs hs fs s S F I. unfold polys_segs in I. apply in_flat_map in I. destruct I as [l [L I]]. apply in_flat_map in L. destruct L as [f [FF L]]. unfold ring_segs in I. apply in_map_iff in I. destruct I as [e [<- I]].
  assert (SG : forall g, In g gs -> simple_polygon g) by (intros g G; apply S, in_or_app; left; exact G). assert (SH : forall h, In h hs -> simple_polygon h) by (intros h H; apply S, in_or_app; right; exact H).
  pose proof (proj1 (figures hs gs fs F f) FF) as [[g [h [la [lb [[a1 a2] [[b1 b2] [G [H [LA [LB [EA [EB ->]]]]]]]]]]]]|[g [h [a0 [b0 [ta [tb [G [H [Eg [Eh K]]]]]]]]]]].
  - assert (CA : In (a1, a2) (cyc_edges la)) by (apply path_in_cyc; [apply (proj1 (SG g G)); exact LA|exact EA]). assert (CB : In (b1, b2) (cyc_edges lb)) by (apply path_in_cyc; [apply (proj1 (SH h H)); exact LB|exact EB]).
    destruct (cyc_in _ _ CA) as [A1 A2]. destruct (cyc_in _ _ CB) as [B1 B2]. cbn [fst snd] in *. unfold para, rings in L. cbn [g_outer g_holes] in L. destruct L as [<-|[]].
    unfold convolve_two_segments in I. cbn [cyc_edges combine app fst snd] in I. destruct I as [<-|[<-|[<-|[<-|[]]]]]; cbn [fst snd].
    + exists g, h, la, lb, (a1, a2), b1. split; [left; auto|]. split; [exact LA|]. split; [exact LB|]. split; [exact CA|]. split; [exact B1|]. cbn [fst snd]. right. rewrite !(convolve_comm b1). reflexivity.
    + exists h, g, lb, la, (b1, b2), a1. split; [right; auto|]. split; [exact LB|]. split; [exact LA|]. split; [exact CB|]. split; [exact A1|]. left. reflexivity.
    + exists g, h, la, lb, (a1, a2), b2. split; [left; auto|]. split; [exact LA|]. split; [exact LB|]. split; [exact CA|]. split; [exact B2|]. cbn [fst snd]. left. rewrite !(convolve_comm b2). reflexivity.
    + exists h, g, lb, la, (b1, b2), a2. split; [right; auto|]. split; [exact LB|]. split; [exact LA|]. split; [exact CB|]. split; [exact A2|]. right. reflexivity.
  - assert (M : forall k v, In l (rings (poly_convolve k v)) -> exists m e0, In m (rings k) /\ In e0 (cyc_edges m) /\ e = (pt_convolve (fst e0) v, pt_convolve (snd e0) v)).
    { intros k v [<-|J]; [|cbn [poly_convolve g_holes] in J; apply in_map_iff in J; destruct J as [m [<- J]]].
      - cbn [poly_convolve g_outer] in I. apply convolve_edges in I. destruct I as [e0 [I E]]. exists (g_outer k), e0. split; [left; reflexivity|auto].
      - apply convolve_edges in I. destruct I as [e0 [I E]]. exists m, e0. split; [right; exact J|auto]. }
    destruct K as [->| ->]; apply M in L; destruct L as [m [e0 [L [E0 ->]]]]; cbn [fst snd].
    + exists g, h, m, (g_outer h), e0, b0. split; [left; auto|]. split; [exact L|]. split; [left; reflexivity|]. split; [exact E0|]. split; [rewrite Eh; left; reflexivity|left; reflexivity].
    + exists h, g, m, (g_outer g), e0, a0. split; [right; auto|]. split; [exact L|]. split; [left; reflexivity|]. split; [exact E0|]. split; [rewrite Eg; left; reflexivity|left; reflexivity].
Qed.
Print Assumptions C76_edges.

(* the coordinates are less than 2^29 *)
Definition small_poly (g : gpoly) : Prop := forall l p, In l (rings g) -> In p l -> - 2 ^ 29 < px p < 2 ^ 29 /\ - 2 ^ 29 < py p < 2 ^ 29.
(* The result for two polygon sets: its edges go around a place off the edges of the
   figures if and only if it is such a sum; the polygons that are formed from it cover
   the sum, at the distance from the edges of the figures that snapping needs. *)
Theorem C76_sets : forall w a b gs hs r, get_polygons a = Ok gs -> get_polygons b = Ok hs ->
  (forall g, In g (gs ++ hs) -> simple_polygon g /\ small_poly g) -> convolve_two_polygon_sets w a b = Ok r ->
  exists fs, convolve_polygons gs hs = Ok fs /\ good_edges r /\ closed (as_set r) /\
    (forall x y, (forall s, In s (polys_segs fs) -> ~ on_r s x y) -> (0 < depth_below (as_set r) 0 x y <-> minkowski_sum gs hs x y)) /\
    exists ks, get_polygons r = Ok ks /\ forall x y, away (polys_segs fs) x y -> (rings_winding ks x y = 1 <-> minkowski_sum gs hs x y) /\ (rings_winding ks x y = 0 <-> ~ minkowski_sum gs hs x y).
Proof.
  intros w a b gs hs r EA EB S E. destruct (C76_defined gs hs (fun g G => proj1 (S g G))) as [fs F]. unfold convolve_two_polygon_sets in E. rewrite EA, EB in E. cbn [obind] in E. rewrite F in E. cbn [obind] in E.
  assert (FIT : forall f, In f fs -> poly_fits f).
  { intros f FF l L e I. assert (IS : In (mk_seg (fst e) (snd e)) (polys_segs fs)) by (apply in_flat_map; exists l; split; [apply in_flat_map; exists f; auto|]; apply (in_map (fun e : point * point => mk_seg (fst e) (snd e))); exact I).
    destruct (C76_edges gs hs fs _ (fun g G => proj1 (S g G)) F IS) as [g [h [l' [m [e0 [v [GH [L' [M [E0 [V K]]]]]]]]]]].
    assert (SG : small_poly g) by (apply (S g); apply in_or_app; tauto). assert (SH : small_poly h) by (apply (S h); apply in_or_app; tauto).
    destruct (cyc_in _ _ E0) as [P1 P2]. pose proof (SG _ _ L' P1) as B1. pose proof (SG _ _ L' P2) as B2. pose proof (SH _ _ M V) as B3.
    unfold edge_fits, fits, coord_fits. cbn [s_low s_high]. destruct e as [u t], e0 as [u' t']. cbn [fst snd] in *. destruct K as [K|K]; injection K as -> ->; unfold pt_convolve; cbn [px py]; lia. }
  destruct (C63_insert w fs r E FIT) as [GE [CL [_ D]]]. exists fs. split; [exact F|]. split; [exact GE|]. split; [exact CL|]. split.
  - intros x y O. rewrite D. apply (C76_sum gs hs fs x y (fun g G => proj1 (S g G)) F O).
  - destruct (C70_covers w fs r E FIT) as [ks [K [_ C]]]. exists ks. split; [exact K|]. intros x y A. rewrite (C x y A).
    assert (O : forall s, In s (polys_segs fs) -> ~ on_r s x y) by (intros s I ON; apply (A s x y I ON); rewrite !Rminus_diag_eq, Rabs_R0 by reflexivity; lra).
    rewrite <- (C76_sum gs hs fs x y (fun g G => proj1 (S g G)) F O). destruct (0 <? polys_r fs x y) eqn:P; lia.
Qed.
Print Assumptions C76_sets.
(* The result is defined if the areas fit into the mantissa of long double. *)
Theorem C76_sets_defined : forall w B a b gs hs, 0 <= B -> get_polygons a = Ok gs -> get_polygons b = Ok hs -> (forall g, In g (gs ++ hs) -> simple_polygon g) ->
  (forall g l, In g (gs ++ hs) -> In l (rings g) -> Forall (pt_fits B) l /\ Z.of_nat (length l) * (8 * (2 * B * (2 * B))) <= 2 ^ w) -> 4 * (8 * (2 * B * (2 * B))) <= 2 ^ w ->
  exists r, convolve_two_polygon_sets w a b = Ok r.
Proof.
  intros w B a b gs hs HB EA EB S FI F4. destruct (C76_defined gs hs S) as [fs F]. unfold convolve_two_polygon_sets. rewrite EA, EB. cbn [obind]. rewrite F. cbn [obind].
  assert (SG : forall g, In g gs -> simple_polygon g) by (intros g G; apply S, in_or_app; left; exact G). assert (SH : forall h, In h hs -> simple_polygon h) by (intros h H; apply S, in_or_app; right; exact H).
  assert (PT : forall p q, pt_fits B p -> pt_fits B q -> pt_fits (2 * B) (pt_convolve p q)) by (intros p q P Q; unfold pt_fits, pt_convolve in *; cbn [px py]; lia).
  apply (C63_defined w (2 * B) fs); [lia|]. intros r R. apply in_flat_map in R. destruct R as [f [FF R]].
  assert (SHIFT : forall k m v, In k (gs ++ hs) -> In m (rings k) -> pt_fits B v -> Forall (pt_fits (2 * B)) (ring_convolve m v) /\ Z.of_nat (length (ring_convolve m v)) * (8 * (2 * B * (2 * B))) <= 2 ^ w).
  { intros k m v K M V. destruct (FI k m K M) as [F1 F2]. unfold ring_convolve. rewrite map_length. split; [|exact F2]. apply Forall_forall. intros q Q. apply in_map_iff in Q. destruct Q as [p [<- P]]. apply PT; [|exact V]. rewrite Forall_forall in F1. apply F1. exact P. }
  assert (POLY : forall k v, In k (gs ++ hs) -> pt_fits B v -> In r (rings (poly_convolve k v)) -> Forall (pt_fits (2 * B)) r /\ Z.of_nat (length r) * (8 * (2 * B * (2 * B))) <= 2 ^ w).
  { intros k v K V [<-|J]; [apply (SHIFT k (g_outer k) v K); [left; reflexivity|exact V]|]. cbn [poly_convolve g_holes] in J. apply in_map_iff in J. destruct J as [m [<- J]]. apply (SHIFT k m v K); [right; exact J|exact V]. }
  pose proof (proj1 (figures hs gs fs F f) FF) as [[g [h [la [lb [[a1 a2] [[b1 b2] [G [H [LA [LB [EA' [EB' ->]]]]]]]]]]]]|[g [h [a0 [b0 [ta [tb [G [H [Eg [Eh K]]]]]]]]]]].
  - assert (CA : In (a1, a2) (cyc_edges la)) by (apply path_in_cyc; [apply (proj1 (SG g G)); exact LA|exact EA']). assert (CB : In (b1, b2) (cyc_edges lb)) by (apply path_in_cyc; [apply (proj1 (SH h H)); exact LB|exact EB']).
    destruct (cyc_in _ _ CA) as [A1 A2]. destruct (cyc_in _ _ CB) as [B1 B2]. cbn [fst snd] in *.
    pose proof (proj1 (FI g la (in_or_app _ _ _ (or_introl G)) LA)) as FA. pose proof (proj1 (FI h lb (in_or_app _ _ _ (or_intror H)) LB)) as FB. rewrite Forall_forall in FA, FB.
    unfold para, rings in R. cbn [g_outer g_holes] in R. destruct R as [<-|[]]. split; [|exact F4]. unfold convolve_two_segments. cbn [fst snd]. repeat constructor; apply PT; auto.
  - destruct K as [->| ->]; [apply (POLY g b0); [apply in_or_app; left; exact G| |exact R]|apply (POLY h a0); [apply in_or_app; right; exact H| |exact R]].
    + pose proof (proj1 (FI h (g_outer h) (in_or_app _ _ _ (or_intror H)) (or_introl eq_refl))) as Q. rewrite Forall_forall in Q. apply Q. rewrite Eh. left. reflexivity.
    + pose proof (proj1 (FI g (g_outer g) (in_or_app _ _ _ (or_introl G)) (or_introl eq_refl))) as Q. rewrite Forall_forall in Q. apply Q. rewrite Eg. left. reflexivity.
Qed.
Print Assumptions C76_sets_defined.
(* a square of side 40 with a square hole of side 20, and a slanted parallelogram *)
Definition demo_slanted : gpoly := slanted (mk_pt 0 0) (mk_pt 5 1) (mk_pt 0 0) (mk_pt 2 6).
Lemma demo_simple : forall g, In g ([frame] ++ [demo_slanted]) -> simple_polygon g /\ small_poly g.
Proof.
  intros g [<-|[<-|[]]]; (split; [|intros l p L P; repeat (destruct L as [<-|L]; [repeat (destruct P as [<-|P]; [cbn; lia|]); destruct P|]); destruct L]).
  - apply frame_simple.
  - apply slanted_simple. cbn [px py]. lra.
Qed.
Definition demo_figures : list gpoly := match convolve_polygons [frame] [demo_slanted] with Ok fs => fs | _ => [] end.
Example C76_case : convolve_polygons [frame] [demo_slanted] = Ok demo_figures /\ length demo_figures = 34%nat /\
  minkowski_sum [frame] [demo_slanted] 40.5 20.3 /\ (forall s, In s (polys_segs demo_figures) -> ~ on_r s 40.5 20.3).
Proof.
  split; [reflexivity|]. split; [reflexivity|]. split.
  - exists frame, demo_slanted, 37%R, 16.8%R, 3.5%R, 3.5%R. split; [left; reflexivity|]. split; [left; reflexivity|]. split; [apply region_of_interior, frame_inside; lra|].
    split; [apply region_of_interior; apply (slanted_inside (mk_pt 0 0) (mk_pt 5 1) (mk_pt 0 0) (mk_pt 2 6)) with (al := (1 / 2)%R) (be := (1 / 2)%R); [cbn [px py]; lra|lra|lra|unfold in_para; cbn [px py]; lra]|lra].
  - assert (K : forall l : list seg, Forall (fun s => ~ on_r s 40.5 20.3) l -> forall s, In s l -> ~ on_r s 40.5 20.3) by (intros l F; apply Forall_forall; exact F). apply K.
    let l := eval vm_compute in (polys_segs demo_figures) in change (polys_segs demo_figures) with l.
    repeat (constructor; [intros [t [T [X Y]]]; cbn [s_low s_high px py] in *; lra|]). constructor.
Qed.
(* two sets, with the polygons that are formed from them *)
Definition demo_p : gpoly := slanted (mk_pt 0 40) (mk_pt 0 0) (mk_pt 0 0) (mk_pt 40 0).
Definition demo_q : gpoly := slanted (mk_pt 2 6) (mk_pt 0 0) (mk_pt 0 0) (mk_pt 5 1).
Definition demo_set (g : gpoly) : list (seg * Z) := match insert_polygons 64 [g] with Ok a => a | _ => [] end.
Definition demo_sum : list (seg * Z) := match convolve_two_polygon_sets 64 (demo_set demo_p) (demo_set demo_q) with Ok r => r | _ => [] end.
Example C76_case_sets : get_polygons (demo_set demo_p) = Ok [demo_p] /\ get_polygons (demo_set demo_q) = Ok [demo_q] /\
  (forall g, In g ([demo_p] ++ [demo_q]) -> simple_polygon g /\ small_poly g) /\ convolve_two_polygon_sets 64 (demo_set demo_p) (demo_set demo_q) = Ok demo_sum /\ length demo_sum = 72%nat.
Proof.
  split; [vm_compute; reflexivity|]. split; [vm_compute; reflexivity|]. split; [|split; vm_compute; reflexivity].
  intros g [<-|[<-|[]]]; (split; [|intros l p L P; repeat (destruct L as [<-|L]; [repeat (destruct P as [<-|P]; [cbn; lia|]); destruct P|]); destruct L]); apply slanted_simple; cbn [px py]; lra.
Qed.
Example C76_case_defined : forall g l, In g ([demo_p] ++ [demo_q]) -> In l (rings g) -> Forall (pt_fits 40) l /\ Z.of_nat (length l) * (8 * (2 * 40 * (2 * 40))) <= 2 ^ 64.
Proof. intros g l [<-|[<-|[]]] [<-|[]]; (split; [repeat constructor; cbn; lia|vm_compute; discriminate]). Qed.
