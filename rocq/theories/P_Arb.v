(* C60 to C66: boolean operations on sets of polygons with edges of any angle. *)
From Verif Require Import Base Units Outcome Scan90Spec Poly90Spec Poly90Model Poly90Vertices GeoSpec IvlModel RectModel SegModel PolySpec PolyModel PolyCycle PolyArea ScanBaseModel SnapModel SnapSpec SnapProofs SnapCor ArbSpec ArbModel ArbScan ArbResult ArbSetModel ArbSetProofs ArbSetCor.
From Coq Require Import Reals Lra Sorting.Sorted.

(* ---------- a triangle and a square ---------- *)
Definition demo_tri : list (seg * Z) :=
  [ (mk_seg (mk_pt 0 0) (mk_pt 10 1), 1); (mk_seg (mk_pt 4 9) (mk_pt 10 1), -1); (mk_seg (mk_pt 0 0) (mk_pt 4 9), -1) ].
Definition demo_sq : list (seg * Z) :=
  [ (mk_seg (mk_pt 2 (-3)) (mk_pt 8 (-3)), 1); (mk_seg (mk_pt 8 (-3)) (mk_pt 8 5), -1); (mk_seg (mk_pt 2 5) (mk_pt 8 5), -1); (mk_seg (mk_pt 2 (-3)) (mk_pt 2 5), 1) ].
Ltac edges_ok := unfold good_edges, demo_tri, demo_sq; intros ? ?; repeat match goal with H : In _ (_ :: _) |- _ => destruct H as [<-|H] | H : In _ [] |- _ => destruct H end; cbn [fst snd s_low s_high px py]; unfold ordered, fits, coord_fits; cbn [s_low s_high px py]; (split; [reflexivity|]; lia).
Lemma tri_good : good_edges demo_tri. Proof. edges_ok. Qed.
Lemma sq_good : good_edges demo_sq. Proof. edges_ok. Qed.
Ltac closed_ok := intros k v; unfold demo_tri, demo_sq; cbn [as_set map tot fst snd along wt s_low s_high px py vertical_edge]; unfold along, wt, vertical_edge; cbn [fst snd s_low s_high px py]; destruct (0 =? k); cbn [Z.eqb Pos.eqb];
  repeat match goal with |- context [if eq_pt ?p v then _ else _] => destruct (eq_pt p v) end; lia.
Lemma tri_closed : closed (as_set demo_tri). Proof. closed_ok. Qed.
Lemma sq_closed : closed (as_set demo_sq). Proof. closed_ok. Qed.

(* ---------- C60: the scan line ---------- *)
(* If edges meet only in common ends and make up closed curves, then the scan reports
   exactly the edges that have different properties on their two sides, with the
   properties on the two sides; every edge once. *)
Theorem C60_sides : forall l : list vprop, noded (map fst l) ->
  (forall e, In e l -> ordered (fst e) /\ fits (fst e) /\ - 2 ^ 31 < px (s_low (fst e))) -> closed l ->
  exists data out, vd_sort l = Ok data /\ scan data = Ok out /\ NoDup (map fst out) /\
    (forall e L R, In (e, (L, R)) out <-> In e (map fst l) /\ sides l e L R /\ L <> R).
Proof. exact scan_main. Qed.
Print Assumptions C60_sides.
(* The edges that are kept bound the plane covered as the operation says, once. *)
Theorem C60_operation : forall (l : list vprop) (op : bool_op), noded (map fst l) ->
  (forall e, In e l -> ordered (fst e) /\ fits (fst e) /\ - 2 ^ 31 < px (s_low (fst e))) -> closed l ->
  (forall e, In e l -> fst (snd e) = 0 \/ fst (snd e) = 1) ->
  exists data out, vd_sort l = Ok data /\ scan data = Ok out /\ let r := flat_map (bool_out op) out in
    NoDup (map fst r) /\ (forall e c, In (e, c) r -> In e (map fst l) /\ (c = 1 \/ c = -1)) /\ closed (as_set r) /\
    forall x y, depth_below (as_set r) 0 x y = kept op (fun k => depth_below l k x y) /\
                depth_above (as_set r) 0 x y = kept op (fun k => depth_above l k x y) /\
                depth_below_left (as_set r) 0 x y = kept op (fun k => depth_below_left l k x y).
Proof. exact bool_main. Qed.
Print Assumptions C60_operation.
(* the triangle twice and, on one side of its long edge, another one of property 1 *)
Definition demo_l : list vprop :=
  [ (mk_seg (mk_pt 0 0) (mk_pt 10 1), (0, 2)); (mk_seg (mk_pt 4 9) (mk_pt 10 1), (0, -2)); (mk_seg (mk_pt 0 0) (mk_pt 4 9), (0, -2));
    (mk_seg (mk_pt 0 0) (mk_pt 10 1), (1, -1)); (mk_seg (mk_pt 0 0) (mk_pt 10 (-5)), (1, 1)); (mk_seg (mk_pt 10 (-5)) (mk_pt 10 1), (1, -1)) ].
Lemma demo_noded : noded (map fst demo_l).
Proof.
  replace (map fst demo_l) with (map fst (match intersect_segments (map fst demo_l) with Ok o => o | _ => [] end)) by (vm_compute; reflexivity).
  apply (result_noded (map fst demo_l)); [|vm_compute; reflexivity]. intros s H. apply fits_small. unfold demo_l in H. cbn [map fst In] in H.
  repeat destruct H as [<-|H]; try destruct H; unfold fits, coord_fits; cbn [s_low s_high px py]; lia.
Qed.
Example C60_demo_hypotheses : noded (map fst demo_l) /\ (forall e, In e demo_l -> ordered (fst e) /\ fits (fst e) /\ - 2 ^ 31 < px (s_low (fst e))) /\ closed demo_l /\
  (forall e, In e demo_l -> fst (snd e) = 0 \/ fst (snd e) = 1).
Proof.
  split; [exact demo_noded|]. split; [unfold demo_l; edges_ok|]. split.
  - intros k v; unfold demo_l; cbn [tot]; unfold along, wt, vertical_edge; cbn [fst snd s_low s_high px py]. destruct (0 =? k), (1 =? k); cbn [Z.eqb Pos.eqb];
    repeat match goal with |- context [if eq_pt ?p v then _ else _] => destruct (eq_pt p v) end; lia.
  - intros e H. unfold demo_l in H. cbn [In] in H. repeat destruct H as [<-|H]; try destruct H; cbn [fst snd]; auto.
Qed.
Example C60_demo : (try data <- vd_sort demo_l; scan data) =
  Ok [ (mk_seg (mk_pt 0 0) (mk_pt 10 (-5)), ([1], [])); (mk_seg (mk_pt 0 0) (mk_pt 10 1), ([0], [1])); (mk_seg (mk_pt 0 0) (mk_pt 4 9), ([], [0]));
       (mk_seg (mk_pt 4 9) (mk_pt 10 1), ([], [0])); (mk_seg (mk_pt 10 (-5)) (mk_pt 10 1), ([1], [])) ].
Proof. vm_compute. reflexivity. Qed.

(* ---------- C61: the result ---------- *)
(* For all sets of edges that make up closed curves, |, &, ^ and - end without overflow
   or undefined behaviour. The edges of the result meet only in common ends, no edge
   occurs twice, every edge counts 1 or -1, and they make up closed curves. So the
   result can be an operand again. *)
Theorem C61_result : forall op a b, good_edges a -> good_edges b -> closed (as_set a) -> closed (as_set b) ->
  exists r, set_op op a b = Ok r /\ NoDup (map fst r) /\ noded (map fst r) /\ good_edges r /\
    (forall e c, In (e, c) r -> c = 1 \/ c = -1) /\ closed (as_set r).
Proof.
  intros op a b GA GB CA CB. destruct (exec_main op a b GA GB CA CB) as [r [E [A [B [C [D [F _]]]]]]]. exists r. unfold set_op. rewrite (insert_set_ordered a GA), (insert_set_ordered b GB). auto 10.
Qed.
Print Assumptions C61_result.
(* Nothing is invented: every point of the edges of the result has a point of an edge
   of the operands less than one unit to the right and above. *)
Theorem C61_near : forall op a b r e x y, good_edges a -> good_edges b -> closed (as_set a) -> closed (as_set b) ->
  set_op op a b = Ok r -> In e (map fst r) -> on_r e x y ->
  exists f x' y', In f (map fst a ++ map fst b) /\ on_r f x' y' /\ within x y x' y'.
Proof.
  intros op a b r e x y GA GB CA CB H. destruct (exec_main op a b GA GB CA CB) as [r' [E [_ [_ [_ [_ [_ [X _]]]]]]]]. unfold set_op in H. rewrite (insert_set_ordered a GA), (insert_set_ordered b GB), E in H. assert (r' = r) by congruence. subst r'. apply X.
Qed.
Print Assumptions C61_near.
Definition demo_and : list (seg * Z) := match set_op OpAnd demo_tri demo_sq with Ok r => r | _ => [] end.
Example C61_demo : good_edges demo_tri /\ good_edges demo_sq /\ closed (as_set demo_tri) /\ closed (as_set demo_sq) /\ set_op OpAnd demo_tri demo_sq = Ok demo_and /\ length demo_and = 6%nat.
Proof. split; [exact tri_good|]. split; [exact sq_good|]. split; [exact tri_closed|]. split; [exact sq_closed|]. vm_compute. auto. Qed.

(* ---------- C62: what the result covers ---------- *)
(* At least one unit away, in x or in y, from all edges of the operands the plane is
   covered by the result exactly as the operation says. *)
Theorem C62_covers : forall op a b r x y, good_edges a -> good_edges b -> closed (as_set a) -> closed (as_set b) ->
  set_op op a b = Ok r -> away (map fst a ++ map fst b) x y ->
  depth_below (as_set r) 0 x y = covers op (depth_below (as_set a) 0 x y) (depth_below (as_set b) 0 x y).
Proof.
  intros op a b r x y GA GB CA CB H. destruct (exec_main op a b GA GB CA CB) as [r' [E [_ [_ [_ [_ [_ [_ [X _]]]]]]]]]. unfold set_op in H. rewrite (insert_set_ordered a GA), (insert_set_ordered b GB), E in H. assert (r' = r) by congruence. subst r'. apply X.
Qed.
Print Assumptions C62_covers.
(* Everywhere if the edges are horizontal or vertical: then nothing is rounded. *)
Theorem C62_axis_parallel : forall op a b r, good_edges a -> good_edges b -> closed (as_set a) -> closed (as_set b) -> axis_parallel a -> axis_parallel b ->
  set_op op a b = Ok r -> forall x y,
    depth_below (as_set r) 0 x y = covers op (depth_below (as_set a) 0 x y) (depth_below (as_set b) 0 x y) /\
    depth_above (as_set r) 0 x y = covers op (depth_above (as_set a) 0 x y) (depth_above (as_set b) 0 x y) /\
    depth_below_left (as_set r) 0 x y = covers op (depth_below_left (as_set a) 0 x y) (depth_below_left (as_set b) 0 x y).
Proof.
  intros op a b r GA GB CA CB PA PB H. destruct (exec_main op a b GA GB CA CB) as [r' [E [_ [_ [_ [_ [_ [_ [_ X]]]]]]]]]. unfold set_op in H. rewrite (insert_set_ordered a GA), (insert_set_ordered b GB), E in H. assert (r' = r) by congruence. subst r'. exact (X PA PB).
Qed.
Print Assumptions C62_axis_parallel.
Ltac away_ok := intros e x' y' IN [t [T [X Y]]] [A B]; apply Rabs_def2 in A, B; cbn [map app fst snd In] in IN;
  repeat (destruct IN as [<-|IN]; [cbn [s_low s_high px py] in X, Y; lra|]); destruct IN.
Example C62_demo : away (map fst demo_tri ++ map fst demo_sq) 4 3 /\ axis_parallel demo_sq.
Proof.
  split; [unfold demo_tri, demo_sq; away_ok|]. intros e H. unfold demo_sq in H. cbn [In] in H. repeat destruct H as [<-|H]; try destruct H; cbn [fst s_low s_high px py]; auto.
Qed.

(* ---------- C63: polygons ---------- *)
(* The edges of polygons with holes make up a set that covers the plane as often as the
   polygons do: the outer curve and the holes are counted by their winding number,
   whatever their direction. *)
Theorem C63_insert : forall w gs a, insert_polygons w gs = Ok a -> (forall g, In g gs -> poly_fits g) ->
  good_edges a /\ closed (as_set a) /\
  (forall s, In s (map fst a) -> exists e, In e (polys_segs gs) /\ same_seg s e) /\
  forall x y, depth_below (as_set a) 0 x y = polys_r gs x y.
Proof.
  intros w gs a H F. destruct (polygons_ok w gs a H F) as [[A [B C]] D]. split; [exact A|]. split; [exact B|]. split; [|exact D].
  intros s S. destruct (C s S) as [r [e [R [E Q]]]]. exists (mk_seg (fst e) (snd e)). split; [apply in_flat_map; exists r; split; [exact R|]; apply (in_map (fun e : point * point => mk_seg (fst e) (snd e))), E|].
  unfold same_seg. destruct Q as [-> | ->]; cbn [s_low s_high]; auto.
Qed.
Print Assumptions C63_insert.
(* Insertion is defined if the area fits into the mantissa of long double. *)
Theorem C63_defined : forall w B gs, 0 <= B ->
  (forall r, In r (flat_map rings gs) -> Forall (pt_fits B) r /\ Z.of_nat (length r) * (8 * (B * B)) <= 2 ^ w) ->
  exists a, insert_polygons w gs = Ok a.
Proof.
  intros w B gs HB. assert (R1 : forall hole r, Forall (pt_fits B) r -> Z.of_nat (length r) * (8 * (B * B)) <= 2 ^ w -> exists a, insert_ring w hole r = Ok a).
  { intros hole r F L. unfold insert_ring, points_ccw_d. destruct (points_area_d_fits w B r HB F L) as [v ->]. cbn [obind]. eexists. reflexivity. }
  assert (R2 : forall hole hs, (forall r, In r hs -> Forall (pt_fits B) r /\ Z.of_nat (length r) * (8 * (B * B)) <= 2 ^ w) -> exists a, insert_rings w hole hs = Ok a).
  { intros hole. induction hs as [|h hs IH]; intros H; [eexists; reflexivity|]. cbn [insert_rings]. destruct (R1 hole h (proj1 (H h (or_introl eq_refl))) (proj2 (H h (or_introl eq_refl)))) as [a ->]. cbn [obind].
    destruct (IH (fun r R => H r (or_intror R))) as [b ->]. cbn [obind]. eexists. reflexivity. }
  induction gs as [|g gs IH]; intros H; [eexists; reflexivity|]. cbn [insert_polygons flat_map] in *. unfold insert_polygon.
  destruct (R1 false (g_outer g)) as [a ->]; [apply H; left; reflexivity|apply H; left; reflexivity|]. cbn [obind].
  destruct (R2 (negb false) (g_holes g)) as [b ->]; [intros r R; apply H; right; apply in_or_app; left; exact R|]. cbn [obind].
  destruct IH as [c ->]; [intros r R; apply H; right; apply in_or_app; right; exact R|]. cbn [obind]. eexists. reflexivity.
Qed.
Print Assumptions C63_defined.
Lemma on_same s t x y : same_seg s t -> on_r s x y -> on_r t x y.
Proof.
  unfold same_seg. intros [-> | ->] H; [exact H|]. destruct H as [u [U [X Y]]]. exists (1 - u)%R. cbn [s_low s_high]. split; [lra|]. split; [rewrite X|rewrite Y]; ring.
Qed.
(* From the polygons of the operands to the plane covered by the result. *)
Theorem C63_operation : forall op w gs hs a b, insert_polygons w gs = Ok a -> insert_polygons w hs = Ok b -> (forall g, In g (gs ++ hs) -> poly_fits g) ->
  exists r, set_op op a b = Ok r /\ forall x y, away (polys_segs gs ++ polys_segs hs) x y ->
    depth_below (as_set r) 0 x y = covers op (polys_r gs x y) (polys_r hs x y).
Proof.
  intros op w gs hs a b HA HB F. destruct (C63_insert w gs a HA) as [GA [CA [EA DA]]]; [intros g G; apply F, in_or_app; left; exact G|]. destruct (C63_insert w hs b HB) as [GB [CB [EB DB]]]; [intros g G; apply F, in_or_app; right; exact G|].
  destruct (C61_result op a b GA GB CA CB) as [r [E _]]. exists r. split; [exact E|]. intros x y AW. rewrite <- DA, <- DB. apply (C62_covers op a b r x y GA GB CA CB E).
  intros e x' y' IN ON. apply in_app_or in IN as [IN|IN]; [destruct (EA e IN) as [f [If S]]|destruct (EB e IN) as [f [If S]]]; (apply (AW f x' y'); [apply in_or_app; auto|exact (on_same _ _ _ _ S ON)]).
Qed.
Print Assumptions C63_operation.
(* a square, given clockwise, with a triangular hole *)
Definition demo_g : gpoly := mk_gpoly [mk_pt 0 0; mk_pt 0 20; mk_pt 20 20; mk_pt 20 0] [[mk_pt 5 5; mk_pt 15 6; mk_pt 9 14]].
Definition demo_h : gpoly := mk_gpoly [mk_pt 8 (-8); mk_pt 30 9; mk_pt 11 30] [].
Definition demo_a : list (seg * Z) := match insert_polygons 64 [demo_g] with Ok a => a | _ => [] end.
Definition demo_b : list (seg * Z) := match insert_polygons 64 [demo_h] with Ok a => a | _ => [] end.
Example C63_demo : insert_polygons 64 [demo_g] = Ok demo_a /\ insert_polygons 64 [demo_h] = Ok demo_b /\ (forall g, In g ([demo_g] ++ [demo_h]) -> poly_fits g) /\ length demo_a = 7%nat /\
  away (polys_segs [demo_g] ++ polys_segs [demo_h]) 18 9.
Proof.
  split; [vm_compute; reflexivity|]. split; [vm_compute; reflexivity|]. split; [|split; [vm_compute; reflexivity|]].
  - intros g G r R e E. unfold demo_g, demo_h in G. cbn [app In] in G. destruct G as [<-|[<-|[]]]; unfold rings in R; cbn [g_outer g_holes In] in R; repeat destruct R as [<-|R]; try destruct R;
    vm_compute in E; repeat destruct E as [<-|E]; try destruct E; unfold edge_fits, fits, coord_fits; cbn [fst snd s_low s_high px py]; lia.
  - let l := eval vm_compute in (polys_segs [demo_g] ++ polys_segs [demo_h]) in change (polys_segs [demo_g] ++ polys_segs [demo_h]) with l. away_ok.
Qed.

(* ---------- C64: clean ---------- *)
Lemma closed_nil : closed (as_set []). Proof. intros k v. reflexivity. Qed.
Lemma good_nil : good_edges []. Proof. intros e []. Qed.
Lemma covers_or d : covers OpOr d 0 = if 0 <? d then 1 else 0.
Proof. unfold covers, keeps. rewrite orb_false_r. reflexivity. Qed.
(* clean is defined, yields edges that meet only in common ends and count 1 or -1, and
   covers, away from the edges, what is covered more than zero times. *)
Theorem C64_clean : forall a, good_edges a -> closed (as_set a) ->
  exists r, set_clean a = Ok r /\ NoDup (map fst r) /\ noded (map fst r) /\ good_edges r /\ (forall e c, In (e, c) r -> c = 1 \/ c = -1) /\ closed (as_set r) /\
    (forall x y, away (map fst a) x y -> depth_below (as_set r) 0 x y = if 0 <? depth_below (as_set a) 0 x y then 1 else 0) /\
    (axis_parallel a -> forall x y,
      depth_below (as_set r) 0 x y = (if 0 <? depth_below (as_set a) 0 x y then 1 else 0) /\
      depth_above (as_set r) 0 x y = (if 0 <? depth_above (as_set a) 0 x y then 1 else 0) /\
      depth_below_left (as_set r) 0 x y = (if 0 <? depth_below_left (as_set a) 0 x y then 1 else 0)).
Proof.
  intros a G C. destruct (exec_main OpOr a [] G good_nil C closed_nil) as [r [E [A [B [D [F [H [_ [X Y]]]]]]]]]. exists r. unfold set_clean. split; [exact E|]. repeat (split; [assumption|]). cbn [map] in X. rewrite app_nil_r in X. split.
  - intros x y AW. rewrite (X x y AW). apply covers_or.
  - intros P x y. destruct (Y P (fun e (K : In e []) => match K with end) x y) as [Y1 [Y2 Y3]]. rewrite Y1, Y2, Y3. split; [|split]; apply covers_or.
Qed.
Print Assumptions C64_clean.
Example C64_demo : good_edges demo_tri /\ closed (as_set demo_tri) /\ set_clean demo_tri = Ok [ (mk_seg (mk_pt 0 0) (mk_pt 10 1), 1); (mk_seg (mk_pt 0 0) (mk_pt 4 9), -1); (mk_seg (mk_pt 4 9) (mk_pt 10 1), -1) ].
Proof. split; [exact tri_good|]. split; [exact tri_closed|]. vm_compute. reflexivity. Qed.
(* It may remove a triangle although its corners are grid points and nothing crosses:
   its edges need not be kept. *)
Definition thin_tri : gpoly := mk_gpoly [mk_pt 4 2; mk_pt 5 2; mk_pt 4 4] [].
Theorem C64_keeps_simple_polygons_refuted : exists g a, poly_fits g /\ insert_polygons 64 [g] = Ok a /\ shoelace2 (g_outer g) <> 0 /\ set_clean a = Ok [].
Proof.
  exists thin_tri, (match insert_polygons 64 [thin_tri] with Ok a => a | _ => [] end). split; [|vm_compute; repeat split; discriminate].
  intros r R e E. unfold rings in R. cbn [thin_tri g_outer g_holes In] in R. repeat destruct R as [<-|R]; try destruct R. vm_compute in E; repeat destruct E as [<-|E]; try destruct E; unfold edge_fits, fits, coord_fits; cbn [fst snd s_low s_high px py]; lia.
Qed.
Print Assumptions C64_keeps_simple_polygons_refuted.
(* A clean set that is cleaned again, e.g. after it was copied into another set, may change. *)
Theorem C64_idempotent_refuted : exists gs a r r', (forall g, In g gs -> poly_fits g) /\ insert_polygons 64 gs = Ok a /\ set_clean a = Ok r /\ r <> [] /\ set_clean r = Ok r' /\ r' = [].
Proof.
  pose (gs := [mk_gpoly [mk_pt 4 4; mk_pt 4 7; mk_pt 6 0] []; mk_gpoly [mk_pt 4 2; mk_pt 10 4; mk_pt 0 1] []]).
  exists gs, (match insert_polygons 64 gs with Ok a => a | _ => [] end), [ (mk_seg (mk_pt 4 2) (mk_pt 5 2), 1); (mk_seg (mk_pt 4 2) (mk_pt 4 4), 1); (mk_seg (mk_pt 4 4) (mk_pt 5 2), -1) ], []. split.
  - intros g G r R e E. unfold gs in G. cbn [In] in G. destruct G as [<-|[<-|[]]]; unfold rings in R; cbn [g_outer g_holes In] in R; repeat destruct R as [<-|R]; try destruct R;
    vm_compute in E; repeat destruct E as [<-|E]; try destruct E; unfold edge_fits, fits, coord_fits; cbn [fst snd s_low s_high px py]; lia.
  - split; [vm_compute; reflexivity|]. split; [vm_compute; reflexivity|]. split; [discriminate|]. split; vm_compute; reflexivity.
Qed.
Print Assumptions C64_idempotent_refuted.

(* ---------- C65: == ---------- *)
(* Every set is equal to itself, however its edges are rounded. *)
Theorem C65_reflexive : forall a, good_edges a -> closed (as_set a) -> set_eq a a = Ok true.
Proof. exact set_eq_refl. Qed.
Print Assumptions C65_reflexive.
(* == is defined; equal sets cover the same plane away from the edges. *)
Theorem C65_defined : forall a b, good_edges a -> good_edges b -> closed (as_set a) -> closed (as_set b) -> exists c, set_eq a b = Ok c.
Proof. intros a b GA GB CA CB. destruct (C61_result OpXor a b GA GB CA CB) as [r [E _]]. unfold set_eq. rewrite E. cbn [obind]. eexists. reflexivity. Qed.
Print Assumptions C65_defined.
Theorem C65_sound : forall a b x y, good_edges a -> good_edges b -> closed (as_set a) -> closed (as_set b) -> set_eq a b = Ok true ->
  away (map fst a ++ map fst b) x y -> (0 < depth_below (as_set a) 0 x y <-> 0 < depth_below (as_set b) 0 x y).
Proof. exact set_eq_away. Qed.
Print Assumptions C65_sound.
(* For horizontal and vertical edges: equal if and only if the same plane is covered. *)
Theorem C65_axis_parallel : forall a b, good_edges a -> good_edges b -> closed (as_set a) -> closed (as_set b) -> axis_parallel a -> axis_parallel b ->
  exists c, set_eq a b = Ok c /\
    (c = true <-> forall x y, (0 < depth_below (as_set a) 0 x y <-> 0 < depth_below (as_set b) 0 x y) /\ (0 < depth_above (as_set a) 0 x y <-> 0 < depth_above (as_set b) 0 x y) /\
                              (0 < depth_below_left (as_set a) 0 x y <-> 0 < depth_below_left (as_set b) 0 x y)).
Proof. exact set_eq_axis. Qed.
Print Assumptions C65_axis_parallel.
Example C65_demo : set_eq demo_tri demo_tri = Ok true /\ set_eq demo_tri demo_sq = Ok false /\ set_eq demo_sq (demo_sq ++ demo_sq) = Ok true.
Proof. vm_compute. auto. Qed.
(* A set need not be equal to what clean makes of it. *)
Theorem C65_equal_to_cleaned_refuted : exists gs a r, (forall g, In g gs -> poly_fits g) /\ insert_polygons 64 gs = Ok a /\ set_clean a = Ok r /\ set_eq a r = Ok false.
Proof.
  pose (gs := [mk_gpoly [mk_pt 1 2; mk_pt 1 0; mk_pt 3 3] []; mk_gpoly [mk_pt 0 2; mk_pt 1 2; mk_pt 3 0] []]). pose (a := match insert_polygons 64 gs with Ok a => a | _ => [] end).
  exists gs, a, (match set_clean a with Ok r => r | _ => [] end). split.
  - intros g G r R e E. unfold gs in G. cbn [In] in G. destruct G as [<-|[<-|[]]]; unfold rings in R; cbn [g_outer g_holes In] in R; repeat destruct R as [<-|R]; try destruct R;
    vm_compute in E; repeat destruct E as [<-|E]; try destruct E; unfold edge_fits, fits, coord_fits; cbn [fst snd s_low s_high px py]; lia.
  - split; [vm_compute; reflexivity|]. split; vm_compute; reflexivity.
Qed.
Print Assumptions C65_equal_to_cleaned_refuted.

(* ---------- C66: the range of the coordinates ---------- *)
(* Coordinates up to 2 ^ 30 - 1 are safe, if the area fits into the mantissa of long double. *)
Theorem C66_range : forall op w B gs hs, 0 <= B < 2 ^ 30 ->
  (forall r, In r (flat_map rings (gs ++ hs)) -> Forall (pt_fits B) r /\ Z.of_nat (length r) * (8 * (B * B)) <= 2 ^ w) ->
  exists a b r c, insert_polygons w gs = Ok a /\ insert_polygons w hs = Ok b /\ set_op op a b = Ok r /\ set_clean a = Ok c.
Proof.
  intros op w B gs hs HB H. rewrite flat_map_app in H. destruct (C63_defined w B gs) as [a EA]; [lia|intros r R; apply H, in_or_app; left; exact R|]. destruct (C63_defined w B hs) as [b EB]; [lia|intros r R; apply H, in_or_app; right; exact R|].
  assert (F : forall g, In g (gs ++ hs) -> poly_fits g).
  { intros g G r R e E. assert (R' : In r (flat_map rings gs ++ flat_map rings hs)) by (rewrite <- flat_map_app; apply in_flat_map; exists g; split; assumption). destruct (H r R') as [FR _]. rewrite Forall_forall in FR.
    destruct e as [p q]. apply PolyCycle.cyc_in in E as [P Q]. cbn [fst snd] in P, Q. apply FR in P, Q. unfold pt_fits in P, Q. unfold edge_fits, fits, coord_fits. cbn [fst snd s_low s_high]. lia. }
  destruct (C63_operation op w gs hs a b EA EB F) as [r [ER _]]. destruct (C63_insert w gs a EA (fun g G => F g (in_or_app _ _ _ (or_introl G)))) as [GA [CA _]]. destruct (C64_clean a GA CA) as [c [EC _]]. exists a, b, r, c. auto.
Qed.
Print Assumptions C66_range.
Example C66_demo : forall r, In r (flat_map rings ([demo_g] ++ [demo_h])) -> Forall (pt_fits (2 ^ 19)) r /\ Z.of_nat (length r) * (8 * (2 ^ 19 * 2 ^ 19)) <= 2 ^ 64.
Proof. intros r R. cbn in R. repeat destruct R as [<-|R]; try destruct R; (split; [repeat constructor; cbn; lia|cbn [length]; lia]). Qed.
(* A square at the least int abscissa: the scan overflows when it steps back by one. *)
Theorem C66_least_coordinate_refuted : exists a, closed (as_set a) /\ axis_parallel a /\ (forall e, In e a -> ordered (fst e) /\ fits (fst e)) /\ set_clean a = Overflow.
Proof.
  exists [ (mk_seg (mk_pt (-2147483648) 0) (mk_pt (-2147483644) 0), 1); (mk_seg (mk_pt (-2147483644) 0) (mk_pt (-2147483644) 4), -1); (mk_seg (mk_pt (-2147483648) 4) (mk_pt (-2147483644) 4), -1); (mk_seg (mk_pt (-2147483648) 0) (mk_pt (-2147483648) 4), 1) ].
  split; [closed_ok|]. split; [intros e H; cbn [In] in H; repeat destruct H as [<-|H]; try destruct H; cbn [fst s_low s_high px py]; auto|]. split; [|vm_compute; reflexivity].
  intros e H. cbn [In] in H. repeat destruct H as [<-|H]; try destruct H; (split; [reflexivity|]); unfold fits, coord_fits; cbn [fst s_low s_high px py]; lia.
Qed.
Print Assumptions C66_least_coordinate_refuted.
(* A triangle as wide as 2 ^ 31: the difference of two coordinates overflows. *)
Theorem C66_long_edge_refuted : exists a, closed (as_set a) /\ (forall e, In e a -> ordered (fst e) /\ - 2 ^ 31 < px (s_low (fst e)) /\
    coord_fits (px (s_low (fst e))) /\ coord_fits (py (s_low (fst e))) /\ coord_fits (px (s_high (fst e))) /\ coord_fits (py (s_high (fst e)))) /\ set_clean a = Overflow.
Proof.
  exists [ (mk_seg (mk_pt (-1073741824) 0) (mk_pt 1073741824 0), 1); (mk_seg (mk_pt 1073741824 0) (mk_pt 1073741824 4), -1); (mk_seg (mk_pt (-1073741824) 0) (mk_pt 1073741824 4), -1) ].
  split; [closed_ok|]. split; [|vm_compute; reflexivity].
  intros e H. cbn [In] in H. repeat destruct H as [<-|H]; try destruct H; (split; [reflexivity|]); unfold coord_fits; cbn [fst s_low s_high px py]; lia.
Qed.
Print Assumptions C66_long_edge_refuted.
