(* C12, C51: connectivity of Manhattan regions.
   [legal_set s]: the polygon set s arises in a history of accepted calls.
   [edge g a b]: the set of neighbours of node a in the graph g contains b. *)
From Coq Require Import QArith.
From Verif Require Import Base Scan90Spec Poly90Spec PolyFormSpec PolyFormModel BoolOpModel Set90Spec Set90Model Set90History Set90Cor TouchSpec TouchModel
  TouchStep TouchEvent TouchCor TouchInteract TouchGet.
Open Scope Z_scope.

(* ---------- C12 ---------- *)
(* Inserting any sets of one scan orientation numbers them 0, 1, 2, ...; extract
   then adds to a graph with enough nodes exactly the edges between different
   items whose closed regions have a point in common. *)
Theorem C12_connectivity : forall (l : list pset) (o : orient),
  Forall legal_set l -> Forall (fun s => ps_orient s = o) l ->
  exists c, conn_inserts conn_new l = Some (map Z.of_nat (seq 0 (length l)), c) /\
    forall g, (length l <= length g)%nat ->
      exists g', conn_extract c g = Some g' /\ length g' = length g /\
        forall a b, edge g' a b <-> edge g a b \/
          (a <> b /\ exists s t, nthZ l a = Some s /\ nthZ l b = Some t /\ share_point (ps_covers s) (ps_covers t)).
Proof. exact connectivity_cor. Qed.
Print Assumptions C12_connectivity.

(* started with an empty graph, the result is symmetric and without loops *)
Theorem C12_symmetric_without_loops : forall (l : list pset) (o : orient) ids c n g',
  Forall legal_set l -> Forall (fun s => ps_orient s = o) l -> (length l <= n)%nat ->
  conn_inserts conn_new l = Some (ids, c) -> conn_extract c (repeat [] n) = Some g' ->
  (forall a b, edge g' a b -> edge g' b a) /\ (forall a, ~ edge g' a a).
Proof.
  intros l o ids c n g' Hl Ho Hn Ei Ee. destruct (connectivity_cor l o Hl Ho) as [c0 [E0 H]].
  assert (c0 = c) by congruence. subst c0.
  destruct (H (repeat [] n)) as [g1 [E1 [_ K]]]; [rewrite repeat_length; exact Hn|].
  assert (g1 = g') by congruence. subst g1. split.
  - intros a b Hab. apply K in Hab. apply K. right.
    destruct Hab as [Hab|[Hne [s [t [Hs [Ht Hsp]]]]]]; [contradiction (edge_repeat _ _ _ Hab)|].
    split; [congruence|]. exists t, s. split; [exact Ht|]. split; [exact Hs|].
    destruct Hsp as [p [P1 P2]]. exists p. split; assumption.
  - intros a Ha. apply K in Ha. destruct Ha as [Ha|[Hne _]]; [exact (edge_repeat _ _ _ Ha)|]. apply Hne. reflexivity.
Qed.
Print Assumptions C12_symmetric_without_loops.

(* rectangles: the closed rectangles intersect *)
Definition rects_touch (r s : rect) : Prop :=
  xl r <= xh s /\ xl s <= xh r /\ yl r <= yh s /\ yl s <= yh r.
Definition solid_rect (r : rect) : Prop :=
  xl r < xh r /\ yl r < yh r /\ is_int (xl r) /\ is_int (xh r) /\ is_int (yl r) /\ is_int (yh r).
Definition rect_set (r : rect) : pset := ps_insert_rect (ps_new Horizontal) r false.

Lemma rect_set_legal r : solid_rect r -> legal_set (rect_set r) /\ forall x y, ps_covers (rect_set r) x y <-> in_rect r x y = true.
Proof.
  intros [H1 [H2 [H3 [H4 [H5 H6]]]]].
  assert (Hr : rect_ok r) by (split; lia).
  split.
  - exists (upd (upd start 0%nat (ps_new Horizontal)) 0%nat (rect_set r)), 0%nat. split; [|reflexivity].
    exists [ONew 0 Horizontal; OInsertRect 0 r false], []. split.
    + constructor; [exact I|]. constructor; [|constructor]. cbn [op_ok]. tauto.
    + reflexivity.
  - intros x y. destruct (Set90Proofs.ps_insert_rect_spec (ps_new Horizontal) r false (Set90Proofs.ps_new_ok _) Hr H3 H4 H5 H6) as [_ [E W]].
    unfold ps_covers, ps_count, rect_set. rewrite E, W. cbn [ps_new ps_orient ps_data wind cnt].
    destruct (in_rect r x y); split; (reflexivity || discriminate || lia).
Qed.
Lemma interval_near a b a' b' : a < b -> a' < b' -> a <= b' -> a' <= b ->
  exists x x', a <= x < b /\ a' <= x' < b' /\ near x x'.
Proof.
  intros H1 H2 H3 H4. exists (Z.max a (Z.min (b - 1) a')), (Z.max a' (Z.min (b' - 1) (Z.max a (Z.min (b - 1) a')))).
  unfold near. lia.
Qed.
Lemma rects_share_point r s : solid_rect r -> solid_rect s ->
  (share_point (fun x y => in_rect r x y = true) (fun x y => in_rect s x y = true) <-> rects_touch r s).
Proof.
  intros [H1 [H2 _]] [H3 [H4 _]]. rewrite share_point_near. unfold rects_touch. split.
  - intros [x [y [x' [y' [Hr [Hs [Hx Hy]]]]]]]. unfold in_rect, near in *. lia.
  - intros [A [B [C D]]]. destruct (interval_near _ _ _ _ H1 H3 A B) as [x [x' [X1 [X2 X3]]]].
    destruct (interval_near _ _ _ _ H2 H4 C D) as [y [y' [Y1 [Y2 Y3]]]].
    exists x, y, x', y'. unfold in_rect. split; [lia|]. split; [lia|]. split; assumption.
Qed.

Theorem C12_rectangles : forall l : list rect, Forall solid_rect l ->
  exists c, conn_inserts conn_new (map rect_set l) = Some (map Z.of_nat (seq 0 (length l)), c) /\
    exists g', conn_extract c (repeat [] (length l)) = Some g' /\ length g' = length l /\
      forall a b, edge g' a b <->
        a <> b /\ exists r s, nthZ l a = Some r /\ nthZ l b = Some s /\ rects_touch r s.
Proof.
  intros l Hl. destruct (connectivity_cor (map rect_set l) Horizontal) as [c [E H]].
  - apply Forall_forall. intros s Hs. apply in_map_iff in Hs. destruct Hs as [r [<- Hr]].
    rewrite Forall_forall in Hl. apply rect_set_legal. apply Hl. exact Hr.
  - apply Forall_forall. intros s Hs. apply in_map_iff in Hs. destruct Hs as [r [<- Hr]]. 
    rewrite Forall_forall in Hl. destruct (Hl r Hr) as [H1 [H2 [H3 [H4 [H5 H6]]]]].
    apply (Set90Proofs.ps_insert_rect_spec (ps_new Horizontal) r false (Set90Proofs.ps_new_ok _)); try assumption. split; lia.
  - exists c. rewrite map_length in *. split; [exact E|].
    destruct (H (repeat [] (length l))) as [g' [E' [L' K]]]; [rewrite repeat_length; lia|].
    exists g'. split; [exact E'|]. rewrite repeat_length in L'. split; [exact L'|]. intros a b. rewrite K.
    assert (Hmap : forall i s, nthZ (map rect_set l) i = Some s -> exists r, nthZ l i = Some r /\ s = rect_set r).
    { intros i s. unfold nthZ. destruct (i <? 0); [discriminate|]. rewrite nth_error_map.
      destruct (nth_error l (Z.to_nat i)) as [r|]; [|discriminate]. cbn [option_map]. intros Er. exists r. split; congruence. }
    rewrite Forall_forall in Hl. split.
    + intros [Hx|[Hne [s [t [Hs [Ht Hsp]]]]]]; [contradiction (edge_repeat _ _ _ Hx)|]. split; [exact Hne|].
      destruct (Hmap _ _ Hs) as [r1 [R1 ->]]. destruct (Hmap _ _ Ht) as [r2 [R2 ->]]. exists r1, r2.
      split; [exact R1|]. split; [exact R2|].
      pose proof (Hl r1 (nthZ_In _ _ _ R1)) as S1. pose proof (Hl r2 (nthZ_In _ _ _ R2)) as S2.
      apply (rects_share_point r1 r2 S1 S2). eapply share_point_iff; [| |exact Hsp]; apply rect_set_legal; assumption.
    + intros [Hne [r1 [r2 [R1 [R2 Ht]]]]]. right. split; [exact Hne|]. exists (rect_set r1), (rect_set r2).
      pose proof (Hl r1 (nthZ_In _ _ _ R1)) as S1. pose proof (Hl r2 (nthZ_In _ _ _ R2)) as S2.
      assert (Hfwd : forall i r, nthZ l i = Some r -> nthZ (map rect_set l) i = Some (rect_set r)).
      { intros i r. unfold nthZ. destruct (i <? 0); [discriminate|]. rewrite nth_error_map. intros ->. reflexivity. }
      split; [apply Hfwd; exact R1|]. split; [apply Hfwd; exact R2|].
      apply (rects_share_point r1 r2 S1 S2) in Ht. eapply share_point_iff; [| |exact Ht]; intros x y; symmetry;
        apply rect_set_legal; assumption.
Qed.
Print Assumptions C12_rectangles.

(* five rectangles: overlap, common edge, common corner, apart *)
Definition demo_rects : list rect :=
  [mk_rect 0 4 0 4; mk_rect 2 6 1 3; mk_rect 4 8 4 6; mk_rect 8 9 0 5; mk_rect 20 21 0 1].
Example C12_nontrivial : Forall solid_rect demo_rects /\
  exists c, conn_inserts conn_new (map rect_set demo_rects) = Some ([0; 1; 2; 3; 4], c) /\
    conn_extract c (repeat [] 5) = Some [[1; 2]; [0]; [0; 3]; [2]; []].
Proof.
  split.
  - unfold demo_rects, solid_rect, is_int, INT_MIN, INT_MAX. repeat constructor; cbn [xl xh yl yh]; lia.
  - eexists. split; vm_compute; reflexivity.
Qed.

(* The orientation of the inserted sets is ignored: with sets of different
   orientations an edge can appear between regions that are far apart. *)
Theorem C12_mixed_orientation_refuted :
  exists l c g', Forall legal_set l /\ conn_inserts conn_new l = Some ([0; 1], c) /\
    conn_extract c (repeat [] 2) = Some g' /\ edge g' 0 1 /\
    exists s t, nthZ l 0 = Some s /\ nthZ l 1 = Some t /\ ~ share_point (ps_covers s) (ps_covers t).
Proof.
  pose (r := mk_rect 0 10 0 1). pose (q := mk_rect 0 1 5 10).
  assert (Sq : solid_rect q) by (unfold q, solid_rect, is_int, INT_MIN, INT_MAX; cbn [xl xh yl yh]; lia).
  pose (s := ps_insert_rect (ps_new Vertical) r false).
  exists [s; rect_set q]. eexists. eexists. split; [|split; [vm_compute; reflexivity|]].
  - constructor; [|constructor; [apply rect_set_legal; exact Sq|constructor]].
    exists (upd (upd start 0%nat (ps_new Vertical)) 0%nat s), 0%nat. split; [|reflexivity].
    exists [ONew 0 Vertical; OInsertRect 0 r false], []. split; [|reflexivity].
    constructor; [exact I|]. constructor; [|constructor].
    cbn [op_ok]. unfold rect_ok, r, is_int, INT_MIN, INT_MAX. cbn [xl xh yl yh]. lia.
  - split; [vm_compute; reflexivity|]. split.
    + split; [lia|]. eexists. split; [vm_compute; reflexivity|]. left. reflexivity.
    + exists s, (rect_set q). split; [reflexivity|]. split; [reflexivity|]. rewrite share_point_near.
      intros [x [y [x' [y' [Hs [Hq [Hx Hy]]]]]]]. apply (rect_set_legal q Sq) in Hq.
      destruct (Set90Proofs.ps_insert_rect_spec (ps_new Vertical) r false (Set90Proofs.ps_new_ok _)) as [_ [E W]];
        try (unfold rect_ok, r, is_int, INT_MIN, INT_MAX; cbn [xl xh yl yh]; lia).
      unfold s, ps_covers, ps_count in Hs. rewrite E, W in Hs. cbn [ps_new ps_orient ps_data wind cnt] in Hs.
      unfold in_rect, q, r, near in *. cbn [xl xh yl yh] in *.
      destruct (Z.leb_spec 0 x), (Z.ltb_spec x 10), (Z.leb_spec 0 y), (Z.ltb_spec y 1); cbn [andb] in Hs; lia.
Qed.
Print Assumptions C12_mixed_orientation_refuted.

(* ---------- C51 ---------- *)
(* s.interact(that): the polygons that get delivers for s cover its region exactly
   (forms); the result covers those of them whose closed region meets the closed
   region of that, each once, and nothing else. The area of a polygon may
   overflow, but not within poly_fits. [that] must be dirty or sorted. *)
Theorem C51_interact_partial : forall st i j, reachable st -> (ps_dirty (st j) = true \/ ps_unsorted (st j) = false) ->
  exists polys s1, ps_get_polygons true (st i) = Some (polys, s1) /\ forms polys (ps_covers (st i)) /\ Forall (fun p => p_holes p = []) polys /\
  match ps_interact_get (st i) (st j) with
  | Ok s' => ps_orient s' = ps_orient (st i) /\
      forall x y, (ps_count s' x y = 0 \/ ps_count s' x y = 1) /\
        (ps_covers s' x y <-> exists p, In p polys /\ poly_winding p x y = 1 /\
           share_point (ps_covers (st j)) (fun u v => poly_winding p u v = 1))
  | Overflow => forall B, ~ Forall (poly_fits B) polys
  | Undefined => False
  end.
Proof. intros st i j H. apply interact_get_spec; apply reachable_ok; exact H. Qed.
Print Assumptions C51_interact_partial.

(* the same for any list of polygons: the winding counts of the selected
   polygons are added *)
Theorem C51_selection_partial : forall st i j polys, reachable st ->
  (ps_dirty (st j) = true \/ ps_unsorted (st j) = false) -> Forall poly_ok polys ->
  match ps_interact (st i) (st j) polys with
  | Ok s' => ps_orient s' = ps_orient (st i) /\ exists sel, NoDup sel /\
      (forall b, In b sel <-> exists p, nthZ polys (b - 1) = Some p /\
         share_point (ps_covers (st j)) (fun x y => 0 < poly_count p x y)) /\
      forall x y, ps_count s' x y =
        zsum (fun b => match nthZ polys (b - 1) with Some p => poly_count p x y | None => 0 end) sel
  | Overflow => True
  | Undefined => False
  end.
Proof. intros st i j polys H. apply interact_spec. apply reachable_ok. exact H. Qed.
Print Assumptions C51_selection_partial.

Definition demo_interact : list op :=
  [ONew 0 Vertical; OInsertRect 0 (mk_rect 0 10 0 5) false; OInsertRect 0 (mk_rect 20 30 0 5) false; ONew 1 Vertical;
   OInsertRect 1 (mk_rect 10 12 5 7) false].
Definition demo_polys : list poly90 := [mk_poly90 [0; 0; 10; 5] []; mk_poly90 [20; 0; 30; 5] []].
Example C51_interact_nontrivial : Forall op_ok demo_interact /\
  exists st s, run start demo_interact = Ok (st, []) /\ ps_dirty (st 1%nat) = true /\
    ps_interact (st 0%nat) (st 1%nat) demo_polys = Ok s /\ ps_count s 3 3 = 1 /\ ps_count s 23 3 = 0.
Proof.
  split.
  - unfold demo_interact. repeat (constructor; [cbn [op_ok]; unfold rect_ok, is_int, INT_MIN, INT_MAX; cbn [xl xh yl yh]; try exact I; lia|]).
    constructor.
  - eexists. eexists. split; [reflexivity|]. split; [reflexivity|]. split; [vm_compute; reflexivity|]. split; reflexivity.
Qed.

(* Without the condition on [that] the claim fails: after clean() and a
   transformation that swaps the axes, [that] is clean but not sorted; interact
   then does not see it at all. *)
Theorem C51_unsorted_refuted :
  exists st p s', reachable st /\ ps_dirty (st 0%nat) = false /\ poly_ok p /\
    ps_interact (st 1%nat) (st 0%nat) [p] = Ok s' /\
    share_point (ps_covers (st 0%nat)) (fun x y => 0 < poly_count p x y) /\
    (forall x y, ps_count s' x y = 0).
Proof.
  pose (prog := [ONew 0 Vertical; OInsertRect 0 (mk_rect 0 10 0 5) false; OClean 0; OTransform 0 (mk_iso 4 0 0)]).
  assert (Hok : Forall op_ok prog).
  { unfold prog. repeat (constructor; [cbn [op_ok iso_atr]; unfold rect_ok, is_int, INT_MIN, INT_MAX; cbn [xl xh yl yh]; try exact I; lia|]).
    constructor. }
  assert (R : exists st, run start prog = Ok (st, []) /\ ps_dirty (st 0%nat) = false /\ ps_count (st 0%nat) 0 0 = 1 /\
            ps_interact (st 1%nat) (st 0%nat) [mk_poly90 [-20; -20; 20; 20] []] = Ok (mk_ps (ps_orient (st 1%nat)) [] false false)).
  { eexists. split; [reflexivity|]. split; [reflexivity|]. split; [vm_compute; reflexivity|vm_compute; reflexivity]. }
  destruct R as [st [R1 [R2 [R3 R4]]]].
  exists st, (mk_poly90 [-20; -20; 20; 20] []). eexists. split; [exists prog, []; split; [exact Hok|exact R1]|].
  split; [exact R2|]. split; [|split; [exact R4|split]].
  - split; [|constructor]. cbn [p_outer]. split; [repeat constructor; unfold INT_MIN, INT_MAX; lia|]. right. left.
    split; [exists 2%nat; reflexivity|]. split.
    + exists (-20), (-20), [], 20, 20. split; [reflexivity|]. split; lia.
    + intros jj a b E1 E2 E3. destruct jj as [|[|[|[|jj]]]]; cbn in E1, E2, E3; try congruence; destruct jj; discriminate E1.
  - rewrite share_point_near. exists 0, 0, 0, 0. split; [unfold ps_covers; rewrite R3; lia|].
    split; [vm_compute; reflexivity|]. unfold near. lia.
  - intros x y. unfold ps_count. cbn [ps_orient ps_data]. destruct (ps_orient (st 1%nat)); reflexivity.
Qed.
Print Assumptions C51_unsorted_refuted.

(* a square with a hole and a square that touches it at a corner; the argument
   meets only the first *)
Definition demo_interact_get : list op :=
  [ONew 0 Vertical; OInsertRect 0 (mk_rect 0 10 0 10) false; OInsertRect 0 (mk_rect 2 4 2 4) true;
   OInsertRect 0 (mk_rect 10 13 10 12) false; ONew 1 Vertical; OInsertRect 1 (mk_rect (-3) 0 8 12) false].
Example C51_interact_get_nontrivial : Forall op_ok demo_interact_get /\
  exists st s, run start demo_interact_get = Ok (st, []) /\ ps_dirty (st 1%nat) = true /\
    ps_interact_get (st 0%nat) (st 1%nat) = Ok s /\ ps_count s 0 0 = 1 /\ ps_count s 3 3 = 0 /\ ps_count s 11 11 = 0.
Proof.
  split.
  - unfold demo_interact_get. repeat (constructor; [cbn [op_ok]; unfold rect_ok, is_int, INT_MIN, INT_MAX; cbn [xl xh yl yh]; try exact I; lia|]).
    constructor.
  - eexists. eexists. split; [reflexivity|]. split; [reflexivity|]. split; [vm_compute; reflexivity|]. repeat split; reflexivity.
Qed.

(* The result is marked clean although its vertices are neither merged nor
   cancelled: compared with a set of the same region it is found unequal. *)
Theorem C51_result_comparison_refuted :
  exists st s' t1 t2, reachable st /\ ps_dirty (st 1%nat) = true /\ ps_interact_get (st 0%nat) (st 1%nat) = Ok s' /\
    (forall x y, ps_count s' x y = ps_count (st 0%nat) x y) /\ ps_eq s' (st 0%nat) = Some (false, (t1, t2)).
Proof.
  pose (prog := [ONew 0 Vertical; OInsertRect 0 (mk_rect 0 10 0 10) false; OInsertRect 0 (mk_rect 2 4 2 4) true;
                 ONew 1 Vertical; OInsertRect 1 (mk_rect (-3) 0 8 12) false]).
  assert (Hok : Forall op_ok prog).
  { unfold prog. repeat (constructor; [cbn [op_ok]; unfold rect_ok, is_int, INT_MIN, INT_MAX; cbn [xl xh yl yh]; try exact I; lia|]).
    constructor. }
  assert (R : exists st s' t1 t2, run start prog = Ok (st, []) /\ ps_dirty (st 1%nat) = true /\ ps_interact_get (st 0%nat) (st 1%nat) = Ok s' /\
            (forall x y, ps_count s' x y = ps_count (st 0%nat) x y) /\ ps_eq s' (st 0%nat) = Some (false, (t1, t2))).
  { eexists. eexists. eexists. eexists. split; [reflexivity|]. split; [reflexivity|]. split; [vm_compute; reflexivity|]. split; [|vm_compute; reflexivity].
    intros x y. unfold ps_count, wind. cbn -[Z.leb Z.add Z.mul andb].
    repeat match goal with |- context [?a <=? ?b] => destruct (Z.leb_spec a b) end; cbn [andb]; lia. }
  destruct R as [st [s' [t1 [t2 [R1 R2]]]]]. exists st, s', t1, t2. split; [exists prog, []; split; assumption|exact R2].
Qed.
Print Assumptions C51_result_comparison_refuted.
