(* C67: property_merge of polygons with edges of any angle. *)
From Verif Require Import Base Units Outcome Scan90Spec Poly90Spec Poly90Model Poly90Vertices GeoSpec IvlModel RectModel SegModel PolySpec PolyModel PolyCycle PolyArea ScanBaseModel SnapModel SnapSpec ArbSpec ArbModel ArbSetModel ArbMergeSpec ArbMergeModel ArbMergeProofs ArbMergeCor.
From Coq Require Import Reals Lra Sorting.Sorted.

(* property_merge is defined for coordinates up to 2 ^ 30 - 1, if the area fits into the
   mantissa of long double. *)
Theorem C67_defined : forall w B cs, 0 <= B < 2 ^ 30 ->
  (forall r, In r (flat_map rings (map fst cs)) -> Forall (pt_fits B) r /\ Z.of_nat (length r) * (8 * (B * B)) <= 2 ^ w) ->
  exists m, property_merge w cs = Ok m.
Proof.
  intros w B cs HB H. destruct (inserts_def w B HB cs H) as [pmd E]. apply (merge_some w cs pmd E). intros c C. apply (fine_fits w B HB). intros r R. apply H. apply in_flat_map. exists (fst c). split; [apply in_map, C|exact R].
Qed.
Print Assumptions C67_defined.
(* Every result belongs to a nonempty set of properties, no set of properties occurs
   twice, no result is empty. The edges of all results meet only in common ends. In one
   result no edge occurs twice, every edge counts 1 or -1, and the edges make up closed
   curves. *)
Theorem C67_results : forall w cs m, property_merge w cs = Ok m -> (forall c, In c cs -> poly_fits (fst c)) ->
  NoDup (map fst m) /\ noded (flat_map (fun p => map fst (snd p)) m) /\
  forall K r, In (K, r) m -> K <> [] /\ StronglySorted Z.lt K /\ r <> [] /\ NoDup (map fst r) /\ good_edges r /\ (forall e c, In (e, c) r -> c = 1 \/ c = -1) /\ closed (as_set r).
Proof. intros w cs m H F. destruct (merge_main w cs m H F) as [A [B [C _]]]. split; [exact A|]. split; [exact B|]. intros K r I. destruct (C K r I) as [C1 [C2 [C3 [C4 [_ [C6 [C7 [C8 _]]]]]]]]. auto 10. Qed.
Print Assumptions C67_results.
(* Every point of an edge of a result has a point of an edge of the polygons less than
   one unit to the right and above. *)
Theorem C67_near : forall w cs m K r e x y, property_merge w cs = Ok m -> (forall c, In c cs -> poly_fits (fst c)) -> In (K, r) m -> In e (map fst r) -> on_r e x y ->
  exists f x' y', In f (calls_segs cs) /\ on_r f x' y' /\ within x y x' y'.
Proof. intros w cs m K r e x y H F I J ON. destruct (merge_main w cs m H F) as [_ [_ [C _]]]. destruct (C K r I) as [_ [_ [_ [_ [_ [_ [_ [_ X]]]]]]]]. apply (X e x y J ON). Qed.
Print Assumptions C67_near.
(* The results do not overlap: everywhere at most one of them covers the plane, once. *)
Theorem C67_disjoint : forall w cs m x y, property_merge w cs = Ok m -> (forall c, In c cs -> poly_fits (fst c)) ->
  (forall K r, In (K, r) m -> depth_below (as_set r) 0 x y = 0) \/
  exists K r, In (K, r) m /\ depth_below (as_set r) 0 x y = 1 /\ forall K' r', In (K', r') m -> K' <> K -> depth_below (as_set r') 0 x y = 0.
Proof.
  intros w cs m x y H F. destruct (merge_main w cs m H F) as [A [_ [C [_ D]]]]. destruct (D x y) as [J DJ].
  assert (OM : ok_map m) by (split; [exact A|]; intros K r I; destruct (C K r I) as [C1 [_ [C3 _]]]; auto).
  assert (X : forall K r, In (K, r) m -> depth_below (as_set r) 0 x y = if ArbModel.zs_eqb J K then 1 else 0) by (intros K r I; rewrite <- (get_in K r m OM I); apply DJ, (proj2 OM K r I)).
  destruct (rm_get J m) as [|e0 r0] eqn:Q.
  - left. intros K r I. rewrite (X K r I), zs_neq; [reflexivity|]. intros E. subst J. rewrite (get_in K r m OM I) in Q. apply (proj2 OM K r I), Q.
  - right. assert (I : In (J, rm_get J m) m) by (apply rm_in; rewrite Q; discriminate). exists J, (rm_get J m). split; [exact I|]. split; [rewrite (X _ _ I), zs_refl; reflexivity|]. intros K' r' I' N. rewrite (X K' r' I'), zs_neq by congruence. reflexivity.
Qed.
Print Assumptions C67_disjoint.
(* At least one unit away, in x or in y, from the edges of the polygons the result of K
   covers the plane exactly where the properties that cover it are those of K. Where
   properties cover the plane there is such a result. *)
Theorem C67_covers : forall w cs m x y, property_merge w cs = Ok m -> (forall c, In c cs -> poly_fits (fst c)) -> away (calls_segs cs) x y ->
  (forall K r, In (K, r) m -> exact (depth_below (as_set r) 0 x y) (fun k => calls_r cs k x y) K) /\
  (forall K, K <> [] -> cover_list (fun k => calls_r cs k x y) K -> exists r, In (K, r) m /\ depth_below (as_set r) 0 x y = 1).
Proof.
  intros w cs m x y H F AW. destruct (merge_main w cs m H F) as [A [_ [C [D _]]]]. destruct (D x y) as [d [D1 D2]]. specialize (D2 (or_introl AW)).
  assert (OM : ok_map m) by (split; [exact A|]; intros K r I; destruct (C K r I) as [C1 [_ [C3 _]]]; auto). split.
  - intros K r I. apply (exact_ext _ d); [exact D2|]. rewrite <- (get_in K r m OM I). apply D1, (proj2 OM K r I).
  - intros K NE CV. destruct (exact_ext _ _ _ _ D2 (D1 K NE)) as [[E _]|[_ E]]; [|contradiction]. exists (rm_get K m). split; [|exact E]. apply rm_in. intros Q. rewrite Q in E. discriminate.
Qed.
Print Assumptions C67_covers.
(* Everywhere if the edges are horizontal or vertical. *)
Theorem C67_axis_parallel : forall w cs m x y, property_merge w cs = Ok m -> (forall c, In c cs -> poly_fits (fst c)) -> (forall s, In s (calls_segs cs) -> axis_seg s) ->
  (forall K r, In (K, r) m -> exact (depth_below (as_set r) 0 x y) (fun k => calls_r cs k x y) K) /\
  (forall K, K <> [] -> cover_list (fun k => calls_r cs k x y) K -> exists r, In (K, r) m /\ depth_below (as_set r) 0 x y = 1).
Proof.
  intros w cs m x y H F AX. destruct (merge_main w cs m H F) as [A [_ [C [D _]]]]. destruct (D x y) as [d [D1 D2]]. specialize (D2 (or_intror AX)).
  assert (OM : ok_map m) by (split; [exact A|]; intros K r I; destruct (C K r I) as [C1 [_ [C3 _]]]; auto). split.
  - intros K r I. apply (exact_ext _ d); [exact D2|]. rewrite <- (get_in K r m OM I). apply D1, (proj2 OM K r I).
  - intros K NE CV. destruct (exact_ext _ _ _ _ D2 (D1 K NE)) as [[E _]|[_ E]]; [|contradiction]. exists (rm_get K m). split; [|exact E]. apply rm_in. intros Q. rewrite Q in E. discriminate.
Qed.
Print Assumptions C67_axis_parallel.
(* a square with a triangular hole, a triangle, a square cut out of it *)
Definition demo_calls : list (gpoly * (Z * bool)) :=
  [ (mk_gpoly [mk_pt 0 0; mk_pt 0 20; mk_pt 20 20; mk_pt 20 0] [[mk_pt 5 5; mk_pt 15 6; mk_pt 9 14]], (7, false));
    (mk_gpoly [mk_pt 8 (-8); mk_pt 30 9; mk_pt 11 30] [], (3, false));
    (mk_gpoly [mk_pt 15 8; mk_pt 18 8; mk_pt 18 8; mk_pt 18 12; mk_pt 15 12] [], (7, true)) ].
Definition demo_map : rmap := match property_merge 64 demo_calls with Ok m => m | _ => [] end.
Example C67_demo : property_merge 64 demo_calls = Ok demo_map /\ map fst demo_map = [[7]; [3]; [3; 7]] /\ (forall c, In c demo_calls -> poly_fits (fst c)) /\ away (calls_segs demo_calls) 17 15 /\
  (forall r, In r (flat_map rings (map fst demo_calls)) -> Forall (pt_fits 30) r /\ Z.of_nat (length r) * (8 * (30 * 30)) <= 2 ^ 64).
Proof.
  split; [vm_compute; reflexivity|]. split; [vm_compute; reflexivity|]. split; [|split].
  - intros g G r R e E. unfold demo_calls in G. cbn [In] in G. destruct G as [<-|[<-|[<-|[]]]]; unfold rings in R; cbn [fst g_outer g_holes In] in R; repeat destruct R as [<-|R]; try destruct R;
    vm_compute in E; repeat destruct E as [<-|E]; try destruct E; unfold edge_fits, fits, coord_fits; cbn [fst snd s_low s_high px py]; lia.
  - let l := eval vm_compute in (calls_segs demo_calls) in change (calls_segs demo_calls) with l. intros e x' y' IN [t [T [X Y]]] [A B]; apply Rabs_def2 in A, B; cbn [In] in IN;
    repeat (destruct IN as [<-|IN]; [cbn [s_low s_high px py] in X, Y; lra|]); destruct IN.
  - intros r R. cbn in R. repeat destruct R as [<-|R]; try destruct R; (split; [repeat constructor; cbn; lia|cbn [length]; lia]).
Qed.
