(* C01-C04, C06 (rectangles), C07-C09, C11, C42: Manhattan polygon sets.
   [ps_count s x y] is the winding count of the cell (x,y) in the object s,
   [ps_covers s x y] says that it is positive, [reachable] are the stores that
   arise in histories of accepted calls (Set90Spec.op_ok) from empty sets. *)
From Verif Require Import Base Scan90Spec BoolOpModel IsoSpec IsoModel Set90Spec Set90Model Set90Cor Set90History.

(* two overlapping rectangles and a hole in set 0, a rectangle in set 1,
   orientations VERTICAL and HORIZONTAL *)
Definition demo : list op :=
  [ONew 0 Vertical; OInsertRect 0 (mk_rect 0 10 0 10) false; OInsertRect 0 (mk_rect 5 15 5 15) false;
   OInsertRect 0 (mk_rect 2 3 2 3) true; OInsertRect 1 (mk_rect (-4) 6 1 9) false; ONew 2 Vertical].
Lemma demo_ok : Forall op_ok demo.
Proof.
  unfold demo. repeat (constructor; [cbn [op_ok]; unfold rect_ok, is_int, INT_MIN, INT_MAX; cbn [xl xh yl yh]; try exact I; lia|]).
  constructor.
Qed.
Definition demo_store : store := match run start demo with Ok (st, _) => st | _ => start end.
Lemma demo_reachable : reachable demo_store.
Proof. exists demo, []. split; [exact demo_ok|reflexivity]. Qed.

(* ---------- C01 ---------- *)
(* Every history of accepted calls either stops with a signed overflow of a
   coordinate or yields answers and winding counts that the abstract machine of
   Set90Spec allows; no other undefined behaviour occurs. *)
Theorem C01_histories_refine_winding_machine : forall ops, Forall op_ok ops ->
  run start ops <> Undefined /\
  forall st outs, run start ops = Ok (st, outs) ->
    exists ast, aruns astart ops ast outs /\
      forall i, ps_orient (st i) = fst (ast i) /\ forall x y, ps_count (st i) x y = snd (ast i) x y.
Proof. exact history_spec. Qed.
Print Assumptions C01_histories_refine_winding_machine.
Example C01_history_nontrivial : Forall op_ok demo /\
  exists st, run start demo = Ok (st, []) /\ ps_count (st 0%nat) 6 6 = 2 /\ ps_count (st 0%nat) 2 2 = 0 /\ ps_count (st 0%nat) 12 12 = 1.
Proof. split; [exact demo_ok|]. eexists. split; [reflexivity|]. vm_compute. repeat split. Qed.

Theorem C01_clean_keeps_region : forall st i, reachable st ->
  exists s, ps_clean (st i) = Some s /\ ps_orient s = ps_orient (st i) /\
    ps_dirty s = false /\ ps_unsorted s = false /\
    canonical (ps_data s) /\ closed (ps_data s) /\
    forall x y, ps_count s x y = b2z (ps_count (st i) x y >? 0).
Proof. exact clean_cor. Qed.
Print Assumptions C01_clean_keeps_region.
Example C01_clean_demo : exists s, ps_clean (demo_store 0%nat) = Some s /\ ps_data s <> ps_data (demo_store 0%nat) /\
  ps_count s 6 6 = 1 /\ ps_count s 2 2 = 0.
Proof. eexists. split; [vm_compute; reflexivity|]. split; [vm_compute; discriminate|]. vm_compute. split; reflexivity. Qed.

(* without holes the machine is the obvious one over plain regions *)
Theorem C01_hole_free_histories_refine_regions : forall ops, Forall op_ok ops -> Forall hole_free ops ->
  match run start ops with
  | Ok (st, outs) => exists rst, rruns rstart ops rst outs /\
      forall i, ps_orient (st i) = fst (rst i) /\
        forall x y, 0 <= wind (ps_orient (st i)) (ps_data (st i)) x y /\
          (0 < wind (ps_orient (st i)) (ps_data (st i)) x y <-> snd (rst i) x y)
  | Overflow => True
  | Undefined => False
  end.
Proof. exact run_region_spec. Qed.
Print Assumptions C01_hole_free_histories_refine_regions.
Example C01_hole_free_nontrivial :
  Forall hole_free [OInsertRect 0 (mk_rect 0 10 0 10) false; OBin 1 OpSub 0 2; QEq 0 1; OInsertSet 2 1; QExtents 2] /\
  exists st, run start [OInsertRect 0 (mk_rect 0 10 0 10) false; OBin 1 OpSub 0 2; QEq 0 1; OInsertSet 2 1; QExtents 2]
    = Ok (st, [ABool true; ARect (Some (mk_rect 0 10 0 10))]).
Proof. split; [repeat constructor|]. eexists. vm_compute. reflexivity. Qed.

(* ---------- C02 ---------- *)
Theorem C02_operators_pointwise : forall st f i j, reachable st ->
  exists s, ps_assign_view f (st i) (st j) = Some s /\
    ps_orient s = ps_orient (st i) /\ canonical (ps_data s) /\
    forall x y, ps_covers s x y <-> bop_prop f (ps_covers (st i) x y) (ps_covers (st j) x y).
Proof. exact view_cor. Qed.
Print Assumptions C02_operators_pointwise.
Example C02_demo : reachable demo_store /\ exists s, ps_assign_view OpSub (demo_store 0%nat) (demo_store 1%nat) = Some s /\
  ps_covers s 8 8 /\ ~ ps_covers s 3 4.
Proof.
  split; [exact demo_reachable|]. eexists. split; [vm_compute; reflexivity|]. vm_compute. split; [reflexivity|discriminate].
Qed.

Theorem C02_assignment_operators_pointwise : forall st f i j, reachable st ->
  exists s, ps_bin_assign f (st i) (st j) = Some s /\
    ps_orient s = ps_orient (st i) /\
    forall x y, ps_covers s x y <-> bop_prop f (ps_covers (st i) x y) (ps_covers (st j) x y).
Proof. exact bin_assign_cor. Qed.
Print Assumptions C02_assignment_operators_pointwise.

(* A |= B is not the union if A contains an unnormalised hole *)
Theorem C02_or_assign_refuted : exists ops st outs, Forall op_ok ops /\ run start ops = Ok (st, outs) /\
  exists x y, (ps_covers (st 0%nat) x y \/ ps_covers (st 1%nat) x y) /\
    ~ ps_covers (ps_insert_set false (st 0%nat) (st 1%nat)) x y.
Proof.
  exists [OInsertRect 0 (mk_rect 0 2 0 2) true; OInsertRect 1 (mk_rect 0 2 0 2) false].
  eexists _, _. split; [|split; [vm_compute; reflexivity|]].
  - repeat (constructor; [cbn [op_ok]; unfold rect_ok, is_int, INT_MIN, INT_MAX; cbn [xl xh yl yh]; lia|]). constructor.
  - exists 0, 0. vm_compute. split; [right; reflexivity|discriminate].
Qed.
Print Assumptions C02_or_assign_refuted.

(* a view whose left operand is not a polygon_90_set_data and whose right one is
   a polygon_90_set_data of another orientation reads the right one with x and y
   exchanged: here "rectangles & set" of disjoint regions is not empty *)
Theorem C02_mixed_view_refuted : exists ops st outs, Forall op_ok ops /\ run start ops = Ok (st, outs) /\
  exists out x y, view_value_left_other OpAnd (st 0%nat) (st 1%nat) = Some out /\
    0 < wind (ps_orient (st 0%nat)) out x y /\ ~ ps_covers (st 1%nat) x y.
Proof.
  exists [ONew 0 Horizontal; ONew 1 Vertical; OInsertRect 0 (mk_rect 0 2 5 7) false; OInsertRect 1 (mk_rect 5 7 0 2) false].
  eexists _, _. split; [|split; [vm_compute; reflexivity|]].
  - repeat (constructor; [cbn [op_ok]; unfold rect_ok, is_int, INT_MIN, INT_MAX; cbn [xl xh yl yh]; try exact I; lia|]). constructor.
  - eexists _, 0, 5. split; [vm_compute; reflexivity|]. vm_compute. split; [reflexivity|discriminate].
Qed.
Print Assumptions C02_mixed_view_refuted.

(* ---------- C03 ---------- *)
Theorem C03_equal_iff_same_region : forall st i j, reachable st -> ps_orient (st i) = ps_orient (st j) ->
  exists b s t, ps_eq (st i) (st j) = Some (b, (s, t)) /\
    (b = true <-> forall x y, ps_covers (st i) x y <-> ps_covers (st j) x y).
Proof. exact eq_cor. Qed.
Print Assumptions C03_equal_iff_same_region.
Theorem C03_equivalence_iff_same_region : forall st i j, reachable st ->
  exists b, ps_equivalence (st i) (st j) = Some b /\
    (b = true <-> forall x y, ps_covers (st i) x y <-> ps_covers (st j) x y).
Proof. exact equiv_cor. Qed.
Print Assumptions C03_equivalence_iff_same_region.
Theorem C03_normal_form_unique : forall st st' i j, reachable st -> reachable st' ->
  ps_orient (st i) = ps_orient (st' j) ->
  (forall x y, ps_covers (st i) x y <-> ps_covers (st' j) x y) ->
  exists s, ps_clean (st i) = Some s /\ ps_clean (st' j) = Some s.
Proof. exact clean_unique_cor. Qed.
Print Assumptions C03_normal_form_unique.
(* == is false for sets of different scan orientation with the same region *)
Theorem C03_orientation_refuted : exists ops st outs, Forall op_ok ops /\ run start ops = Ok (st, outs) /\
  (forall x y, ps_covers (st 0%nat) x y <-> ps_covers (st 1%nat) x y) /\
  exists p, ps_eq (st 0%nat) (st 1%nat) = Some (false, p).
Proof.
  exists [ONew 0 Horizontal; ONew 1 Vertical].
  eexists _, _. split; [repeat (constructor; [exact I|]); constructor|]. split; [reflexivity|]. split.
  - intros x y. unfold ps_covers. vm_compute. split; discriminate.
  - eexists. reflexivity.
Qed.
Print Assumptions C03_orientation_refuted.
(* the same region built in two different ways *)
Example C03_demo :
  exists st, run start [OInsertRect 0 (mk_rect 0 4 0 4) false; OInsertRect 1 (mk_rect 0 4 0 2) false;
    OInsertRect 1 (mk_rect 0 4 1 4) false; QEq 0 1; OInsertRect 1 (mk_rect 9 10 1 4) false; QEq 0 1]
    = Ok (st, [ABool true; ABool false]).
Proof. eexists. vm_compute. reflexivity. Qed.

(* ---------- C04 ---------- *)
(* every identity between boolean functions holds for the computed sets *)
Theorem C04_boolean_laws : forall st e1 e2, reachable st -> bexp_equiv e1 e2 ->
  exists s1 s2, eval_bexp st e1 = Some s1 /\ eval_bexp st e2 = Some s2 /\
    ps_equivalence s1 s2 = Some true /\
    (ps_orient (st (bexp_left e1)) = ps_orient (st (bexp_left e2)) ->
     exists t1 t2, ps_eq s1 s2 = Some (true, (t1, t2))).
Proof. exact laws_cor. Qed.
Print Assumptions C04_boolean_laws.
Example C04_law_instances :
  bexp_equiv (BBin OpOr (BVar 0) (BVar 1)) (BBin OpOr (BVar 1) (BVar 0)) /\
  bexp_equiv (BBin OpAnd (BVar 0) (BBin OpOr (BVar 1) (BVar 2)))
             (BBin OpOr (BBin OpAnd (BVar 0) (BVar 1)) (BBin OpAnd (BVar 0) (BVar 2))) /\
  bexp_equiv (BBin OpXor (BBin OpXor (BVar 0) (BVar 1)) (BVar 2)) (BBin OpXor (BVar 0) (BBin OpXor (BVar 1) (BVar 2))) /\
  bexp_equiv (BBin OpSub (BVar 0) (BBin OpOr (BVar 1) (BVar 2))) (BBin OpSub (BBin OpSub (BVar 0) (BVar 1)) (BVar 2)) /\
  bexp_equiv (BBin OpOr (BVar 0) (BBin OpAnd (BVar 0) (BVar 1))) (BVar 0).
Proof.
  repeat split; intros rho; cbn [bexp_val bop_fun]; destruct (rho 0%nat), (rho 1%nat); try reflexivity;
    destruct (rho 2%nat); reflexivity.
Qed.

(* ---------- C06, rectangles ---------- *)
Theorem C06_insert_rectangle : forall st i r hole, reachable st -> rect_ok r ->
  is_int (xl r) -> is_int (xh r) -> is_int (yl r) -> is_int (yh r) ->
  ps_orient (ps_insert_rect (st i) r hole) = ps_orient (st i) /\
  forall x y, ps_count (ps_insert_rect (st i) r hole) x y =
    ps_count (st i) x y + (if in_rect r x y then (if hole then -1 else 1) else 0).
Proof. exact insert_rect_cor. Qed.
Print Assumptions C06_insert_rectangle.
Example C06_rect_demo : rect_ok (mk_rect (-1) 4 0 3) /\ in_rect (mk_rect (-1) 4 0 3) 3 2 = true.
Proof. split; [unfold rect_ok; cbn [xl xh yl yh]; lia|reflexivity]. Qed.

(* ---------- C07 ---------- *)
Theorem C07_move : forall st i dx dy, reachable st ->
  match ps_move dx dy (st i) with
  | Ok s => ps_orient s = ps_orient (st i) /\
      forall x y, ps_count s (x + dx) (y + dy) = ps_count (st i) x y
  | Overflow => True
  | Undefined => False
  end.
Proof. exact move_cor. Qed.
Print Assumptions C07_move.
Theorem C07_move_no_overflow : forall s dx dy,
  (forall v, In v (ps_data s) -> is_int (fst (vertex_point (ps_orient s) v) + dx) /\
                                 is_int (snd (vertex_point (ps_orient s) v) + dy)) ->
  exists s', ps_move dx dy s = Ok s'.
Proof. exact move_total. Qed.
Print Assumptions C07_move_no_overflow.
Theorem C07_transform : forall st i t, reachable st -> 0 <= iso_atr t < 8 ->
  match ps_transform t (st i) with
  | Ok s => ps_orient s = ps_orient (st i) /\
      forall c d, maps_cell t c d -> ps_count s (fst d) (snd d) = ps_count (st i) (fst c) (snd c)
  | Overflow => True
  | Undefined => False
  end.
Proof. exact transform_cor. Qed.
Print Assumptions C07_transform.
Theorem C07_scale_up : forall st i k, reachable st -> 0 < k ->
  match ps_scale_up k (st i) with
  | Ok s => ps_orient s = ps_orient (st i) /\
      forall x y, ps_count s x y = ps_count (st i) (x / k) (y / k)
  | Overflow => True
  | Undefined => False
  end.
Proof. exact scale_up_cor. Qed.
Print Assumptions C07_scale_up.
Theorem C07_scale_up_no_overflow : forall s k,
  (forall v, In v (ps_data s) -> is_int (vx v * k) /\ is_int (vy v * k)) ->
  exists s', ps_scale_up k s = Ok s'.
Proof. exact scale_up_total. Qed.
Print Assumptions C07_scale_up_no_overflow.
(* normalised sets that are moved, rotated and scaled stay valid: the answers of
   later queries are right (C01 for the whole history); here for instance *)
Example C07_demo : exists st,
  run start [OInsertRect 0 (mk_rect 0 4 0 2) false; QEmpty 0; OTransform 0 (mk_iso 5 1 1); OMove 0 3 3; OScaleUp 0 2; QExtents 0;
             OInsertRect 1 (mk_rect 4 8 0 8) false; QEq 0 1]
    = Ok (st, [ABool false; ARect (Some (mk_rect 4 8 0 8)); ABool true]).
Proof. eexists. vm_compute. reflexivity. Qed.

(* ---------- C08 ---------- *)
Theorem C08_scale_down_image : forall k s x y, 0 < k -> exists u v,
  (forall a r, rounds_to a k r -> (r <= x <-> a <= u)) /\
  (forall a r, rounds_to a k r -> (r <= y <-> a <= v)) /\
  ps_count (ps_scale_down k s) x y = ps_count s u v.
Proof. exact scale_down_image_cor. Qed.
Print Assumptions C08_scale_down_image.
(* a normalised set that is scaled down to nothing is not empty() *)
Theorem C08_empty_refuted : exists ops st outs, Forall op_ok ops /\ run start ops = Ok (st, outs) /\
  (forall x y, ~ ps_covers (ps_scale_down 4 (st 0%nat)) x y) /\
  exists s, ps_empty (ps_scale_down 4 (st 0%nat)) = Some (false, s).
Proof.
  exists [OInsertRect 0 (mk_rect 0 1 0 1) false; QEmpty 0]. eexists _, _. split; [|split; [vm_compute; reflexivity|split]].
  - repeat (constructor; [cbn [op_ok]; unfold rect_ok, is_int, INT_MIN, INT_MAX; cbn [xl xh yl yh]; try exact I; lia|]). constructor.
  - intros x y. unfold ps_covers, ps_count.
    change (wind _ _ x y) with (wind Horizontal [(0, (0, 1)); (0, (0, -1)); (0, (0, -1)); (0, (0, 1))] x y).
    cbn [wind cnt vx vy vc fst snd]. destruct ((0 <=? y) && (0 <=? x)); lia.
  - eexists. vm_compute. reflexivity.
Qed.
Print Assumptions C08_empty_refuted.
(* two normalised sets with the same region after scale_down compare different *)
Theorem C08_equality_refuted : exists ops st outs, Forall op_ok ops /\ run start ops = Ok (st, outs) /\
  (forall x y, ps_covers (ps_scale_down 4 (st 0%nat)) x y <-> ps_covers (ps_scale_down 4 (st 1%nat)) x y) /\
  exists p, ps_eq (ps_scale_down 4 (st 0%nat)) (ps_scale_down 4 (st 1%nat)) = Some (false, p).
Proof.
  exists [OInsertRect 0 (mk_rect 0 1 0 1) false; QEmpty 0]. eexists _, _. split; [|split; [vm_compute; reflexivity|split]].
  - repeat (constructor; [cbn [op_ok]; unfold rect_ok, is_int, INT_MIN, INT_MAX; cbn [xl xh yl yh]; try exact I; lia|]). constructor.
  - intros x y. unfold ps_covers, ps_count.
    change (0 < wind Horizontal [(0, (0, 1)); (0, (0, -1)); (0, (0, -1)); (0, (0, 1))] x y <-> 0 < wind Horizontal [] x y).
    cbn [wind cnt vx vy vc fst snd]. destruct ((0 <=? y) && (0 <=? x)); lia.
  - eexists. vm_compute. reflexivity.
Qed.
Print Assumptions C08_equality_refuted.
(* the property holds for sets that have not been normalised before *)
Theorem C08_unnormalised_partial : forall st i j k, reachable st -> 0 < k ->
  ps_dirty (st i) = true -> ps_dirty (st j) = true ->
  (exists b s, ps_empty (ps_scale_down k (st i)) = Some (b, s) /\
     (b = true <-> forall x y, ~ ps_covers (ps_scale_down k (st i)) x y)) /\
  (ps_orient (st i) = ps_orient (st j) ->
   exists b p, ps_eq (ps_scale_down k (st i)) (ps_scale_down k (st j)) = Some (b, p) /\
     (b = true <-> forall x y, ps_covers (ps_scale_down k (st i)) x y <-> ps_covers (ps_scale_down k (st j)) x y)).
Proof. exact scale_down_dirty_cor. Qed.
Print Assumptions C08_unnormalised_partial.
Example C08_dirty_demo : reachable demo_store /\ ps_dirty (demo_store 0%nat) = true /\ ps_dirty (demo_store 1%nat) = true.
Proof. split; [exact demo_reachable|]. split; reflexivity. Qed.

(* ---------- C09 ---------- *)
Theorem C09_self_xor : forall st i, reachable st -> exists s, ps_self_xor (st i) = Some s /\
  ps_orient s = ps_orient (st i) /\
  forall x y, ps_covers s x y <-> 0 < ps_count (st i) x y /\ Z.Odd (ps_count (st i) x y).
Proof. exact self_xor_cor. Qed.
Print Assumptions C09_self_xor.
Theorem C09_self_intersect_partial : forall st i, reachable st -> exists s, ps_self_intersect (st i) = Some s /\
  ps_orient s = ps_orient (st i) /\
  (ps_dirty (st i) = true -> forall x y, ps_covers s x y <-> 1 < ps_count (st i) x y) /\
  (ps_dirty (st i) = false -> forall x y, ps_covers s x y <-> ps_covers (st i) x y).
Proof. exact self_intersect_cor. Qed.
Print Assumptions C09_self_intersect_partial.
(* after a const query self_intersect keeps cells covered only once *)
Theorem C09_self_intersect_after_query_refuted : exists ops st outs s, Forall op_ok ops /\ run start ops = Ok (st, outs) /\
  ps_self_intersect (st 0%nat) = Some s /\ exists x y, ps_count (st 0%nat) x y = 1 /\ ps_covers s x y.
Proof.
  exists [OInsertRect 0 (mk_rect 0 1 0 1) false; QEmpty 0]. eexists _, _, _. split; [|split; [vm_compute; reflexivity|split; [vm_compute; reflexivity|]]].
  - repeat (constructor; [cbn [op_ok]; unfold rect_ok, is_int, INT_MIN, INT_MAX; cbn [xl xh yl yh]; try exact I; lia|]). constructor.
  - exists 0, 0. vm_compute. split; reflexivity.
Qed.
Print Assumptions C09_self_intersect_after_query_refuted.
Example C09_demo : exists s t, ps_self_xor (demo_store 0%nat) = Some s /\ ps_self_intersect (demo_store 0%nat) = Some t /\
  ~ ps_covers s 6 6 /\ ps_covers t 6 6 /\ ps_covers s 12 12 /\ ~ ps_covers t 12 12.
Proof. eexists _, _. split; [vm_compute; reflexivity|]. split; [vm_compute; reflexivity|]. vm_compute. repeat split; discriminate. Qed.

(* ---------- C11, polygon sets ---------- *)
Theorem C11_extents_of_set : forall st i, reachable st -> exists r s, ps_extents (st i) = Some (r, s) /\
  match r with
  | None => forall x y, ~ ps_covers (st i) x y
  | Some r => bounding_box (ps_covers (st i)) r
  end.
Proof. exact extents_cor. Qed.
Print Assumptions C11_extents_of_set.
Example C11_set_demo : exists s, ps_extents (demo_store 0%nat) = Some (Some (mk_rect 0 15 0 15), s).
Proof. eexists. vm_compute. reflexivity. Qed.

(* ---------- C42 ---------- *)
(* in hole-free histories a query can be added or removed without changing any
   other answer or any final region *)
Theorem C42_queries_are_pure : forall ops1 q ops2,
  Forall op_ok (ops1 ++ q :: ops2) -> Forall hole_free (ops1 ++ q :: ops2) -> is_query q ->
  forall st1 out1 st2 out2,
  run start (ops1 ++ q :: ops2) = Ok (st1, out1) -> run start (ops1 ++ ops2) = Ok (st2, out2) ->
  (exists a b c, out1 = a ++ b ++ c /\ out2 = a ++ c) /\
  forall i, ps_orient (st1 i) = ps_orient (st2 i) /\ forall x y, ps_covers (st1 i) x y <-> ps_covers (st2 i) x y.
Proof. exact pure_query_cor. Qed.
Print Assumptions C42_queries_are_pure.
Example C42_demo : exists st1 st2,
  run start ([OInsertRect 0 (mk_rect 0 4 0 2) false] ++ QEmpty 0 :: [OInsertRect 0 (mk_rect 2 6 0 2) false; QExtents 0])
    = Ok (st1, [ABool false; ARect (Some (mk_rect 0 6 0 2))]) /\
  run start ([OInsertRect 0 (mk_rect 0 4 0 2) false] ++ [OInsertRect 0 (mk_rect 2 6 0 2) false; QExtents 0])
    = Ok (st2, [ARect (Some (mk_rect 0 6 0 2))]).
Proof. eexists _, _. split; vm_compute; reflexivity. Qed.
(* with holes a const query can change the region of the final set *)
Theorem C42_with_holes_refuted : exists ops1 q ops2 st1 out1 st2 out2,
  Forall op_ok (ops1 ++ q :: ops2) /\ is_query q /\
  run start (ops1 ++ q :: ops2) = Ok (st1, out1) /\ run start (ops1 ++ ops2) = Ok (st2, out2) /\
  exists i x y, ps_covers (st1 i) x y /\ ~ ps_covers (st2 i) x y.
Proof.
  exists [OInsertRect 0 (mk_rect 0 1 0 1) true], (QEmpty 0), [OInsertRect 0 (mk_rect 0 1 0 1) false].
  eexists _, _, _, _. split; [|split; [exact I|split; [vm_compute; reflexivity|split; [vm_compute; reflexivity|]]]].
  - repeat (constructor; [cbn [op_ok]; unfold rect_ok, is_int, INT_MIN, INT_MAX; cbn [xl xh yl yh]; try exact I; lia|]). constructor.
  - exists 0%nat, 0, 0. vm_compute. split; [reflexivity|discriminate].
Qed.
Print Assumptions C42_with_holes_refuted.
