(* C06: insertion of Manhattan polygons into a polygon_90_set_data. *)
From Verif Require Import Base Units Outcome Scan90Spec Poly90Spec Poly90Model Poly90Proofs PolyCycle
  Set90Spec Set90Model Poly90Vertices Set90Cor Set90History.

(* ---------- the winding number is the right notion ---------- *)
(* It can be counted along rows as well as along columns, *)
Theorem C06_winding_rows : forall l x y, rectilinear l ->
  winding_number l x y = zsum (crossing_left x y) (cyc_edges l).
Proof. exact (fun l x y => winding_left l x y). Qed.
Print Assumptions C06_winding_rows.
(* it does not depend on the start vertex, and changes sign with the direction, *)
Theorem C06_winding_start_direction : forall l m x y,
  winding_number (l ++ m) x y = winding_number (m ++ l) x y /\
  winding_number (rev l) x y = - winding_number l x y.
Proof. intros l m x y. split; [apply winding_rotate|apply winding_rev]. Qed.
Print Assumptions C06_winding_start_direction.
(* it vanishes outside a bounding box, and adds up to the area. *)
Theorem C06_winding_area : forall x n y m l, rectilinear l -> Forall (inside_box x n y m) l ->
  2 * box_sum x n y m (winding_number l) = shoelace2 l /\
  forall i j, ~ (x <= i < x + Z.of_nat n /\ y <= j < y + Z.of_nat m) -> winding_number l i j = 0.
Proof.
  intros x n y m l A I. split; [apply winding_area; assumption|]. intros i j. apply winding_outside with (1 := A) (2 := I).
Qed.
Print Assumptions C06_winding_area.
Example C06_winding_demo :
  let l := [mk_pt 0 0; mk_pt 3 0; mk_pt 3 2; mk_pt 1 2; mk_pt 1 3; mk_pt 0 3] in
  rectilinear l /\ Forall (inside_box 0 3 0 3) l /\ shoelace2 l = 14 /\
  winding_number l 0 2 = 1 /\ winding_number l 1 2 = 0.
Proof.
  cbv zeta. split; [|split; [|vm_compute; repeat split; reflexivity]].
  - unfold rectilinear. cbn [cyc_edges combine app].
    repeat (apply Forall_cons; [unfold axis_edge; cbn [fst snd px py]; lia|]). constructor.
  - repeat (apply Forall_cons; [unfold inside_box; cbn [px py]; lia|]). constructor.
Qed.

(* ---------- insertion ---------- *)
Theorem C06_insert_polygon : forall st i p hole, reachable st -> poly_ok p ->
  match ps_insert_poly (st i) p hole with
  | Ok s => ps_orient s = ps_orient (st i) /\
      forall x y, ps_count s x y = ps_count (st i) x y + (if hole then -1 else 1) * poly_count p x y
  | Overflow => True
  | Undefined => False
  end.
Proof.
  intros st i p hole H Hp. pose proof (ps_insert_poly_spec (st i) p hole (reachable_ok st i H) Hp) as K.
  destruct (ps_insert_poly (st i) p hole) as [s| |]; try exact K. destruct K as [_ [K2 K3]].
  split; [exact K2|]. intros x y. unfold ps_count. rewrite K2. apply K3.
Qed.
Print Assumptions C06_insert_polygon.
Theorem C06_insert_polygon_no_overflow : forall s p hole B, poly_fits B p -> ps_insert_poly s p hole <> Overflow.
Proof.
  intros s p hole B [H1 H2]. unfold ps_insert_poly. pose proof (poly_vertices_fits (ps_orient s) hole p B H1 H2) as K.
  destruct (poly_vertices (ps_orient s) hole p); [discriminate|contradiction|discriminate].
Qed.
Print Assumptions C06_insert_polygon_no_overflow.
(* an L with a hole *)
Definition demo_poly : poly90 := mk_poly90 [0; 0; 5; 4; 3; 6] [[1; 1; 2; 3]].
Lemma ring_moves_dec l :
  forallb (fun j => match nth_error l j, nth_error l (j + 1), nth_error l (j + 2), nth_error l (j + 3) with
                    | Some a, Some b, Some c, Some d => negb ((a =? c) && (b =? d))
                    | _, _, _, _ => true
                    end) (seq 0 (length l)) = true -> ring_moves l.
Proof.
  intros H j a b H1 H2 H3 H4. rewrite forallb_forall in H.
  assert (J : In j (seq 0 (length l))).
  { apply in_seq. assert (nth_error l j <> None) as N by congruence. apply nth_error_Some in N. lia. }
  specialize (H j J). rewrite H1, H2, H3, H4, !Z.eqb_refl in H. discriminate.
Qed.
Lemma is_int_dec l : forallb (fun z => (INT_MIN <=? z) && (z <=? INT_MAX)) l = true -> Forall is_int l.
Proof.
  intros H. rewrite forallb_forall in H. apply Forall_forall. intros z Hz. specialize (H z Hz). unfold is_int. lia.
Qed.
Example C06_demo_ok : poly_ok demo_poly /\ poly_fits 6 demo_poly /\
  poly_count demo_poly 0 0 = 1 /\ poly_count demo_poly 1 2 = 0 /\ poly_count demo_poly 4 5 = 0 /\ poly_count demo_poly 2 5 = 1.
Proof.
  split; [|split; [|vm_compute; repeat split; reflexivity]].
  - split; [|constructor; [|constructor]].
    + split; [apply is_int_dec; reflexivity|]. right. left. split; [exists 3%nat; reflexivity|].
      split; [exists 0, 0, [5; 4], 3, 6; repeat split; lia|apply ring_moves_dec; reflexivity].
    + split; [apply is_int_dec; reflexivity|]. right. left. split; [exists 2%nat; reflexivity|].
      split; [exists 1, 1, [], 2, 3; repeat split; lia|apply ring_moves_dec; reflexivity].
  - assert (F : forall l B, forallb (fun z => (- B <=? z) && (z <=? B)) l = true -> Forall (fun c => - B <= c <= B) l).
    { intros l B H. rewrite forallb_forall in H. apply Forall_forall. intros z Hz. specialize (H z Hz). lia. }
    split; [|constructor; [|constructor]]; (split; [apply F; reflexivity|split; [lia|reflexivity]]).
Qed.

(* The start vertex and the direction of the outer ring and of the holes do not
   matter, if the ring has an area. *)
Theorem C06_insert_start_direction : forall l l' x y, shoelace2 (ring_points l) <> 0 ->
  rotation (ring_points l) (ring_points l') \/ rotation (rev (ring_points l)) (ring_points l') ->
  ring_count l x y = ring_count l' x y.
Proof.
  intros l l' x y N H. unfold ring_count. destruct H as [[a [b [E1 E2]]]|[a [b [E1 E2]]]].
  - rewrite E1, E2, (winding_rotate a b), (shoelace_rotate a b). reflexivity.
  - rewrite E2, (winding_rotate b a), (shoelace_rotate b a), <- E1, winding_rev, shoelace_rev.
    destruct (Z.ltb_spec 0 (shoelace2 (ring_points l))), (Z.ltb_spec 0 (- shoelace2 (ring_points l))); lia.
Qed.
Print Assumptions C06_insert_start_direction.
Example C06_direction_demo :
  rotation (rev (ring_points [0; 0; 5; 4; 3; 6])) (ring_points [0; 6; 3; 4; 5; 0]).
Proof. exists [], (ring_points [0; 6; 3; 4; 5; 0]). split; vm_compute; reflexivity. Qed.

(* a rectangle given as polygon is the rectangle *)
Theorem C06_rectangle_as_polygon : forall r x y,
  xl r < xh r -> yl r < yh r ->
  poly_count (mk_poly90 [xl r; yl r; xh r; yh r] []) x y = (if in_rect r x y then 1 else 0).
Proof.
  intros [a b c d] x y. cbn [xl xh yl yh]. intros H1 H2. unfold poly_count. cbn [p_outer p_holes].
  unfold ring_count, shoelace2, winding_number. cbn [ring_points ring_points_from cyc_edges app combine].
  rewrite !zsum_cons, crossing_h, crossing_v, crossing_h, crossing_v. unfold zsum, quad, in_rect. cbn [fold_right fst snd px py xl xh yl yh].
  destruct (Z.ltb_spec 0 (a * c - b * c + (b * d - b * c + (b * d - a * d + (a * c - a * d + 0))))) as [P|P].
  - destruct (Z.leb_spec a x), (Z.leb_spec b x), (Z.leb_spec c y), (Z.leb_spec d y), (Z.ltb_spec x b), (Z.ltb_spec y d); cbn [andb b2z]; lia.
  - nia.
Qed.
Print Assumptions C06_rectangle_as_polygon.

(* ---------- refutations ---------- *)
(* The compact coordinates of a closed rectilinear cycle with vertices on the
   closing edge: the set ends up with a region that extends to infinity. *)
Definition wrong_count (l : list Z) : Prop :=
  rectilinear (ring_points l) /\ Forall is_int l /\ Nat.Even (length l) /\
  exists s, ps_insert_poly (ps_new Vertical) (mk_poly90 l []) false = Ok s /\
    exists x y, ps_count s x y <> poly_count (mk_poly90 l []) x y.
Ltac wrong k x0 y0 :=
  split; [unfold rectilinear; cbn [ring_points ring_points_from cyc_edges combine app];
          repeat (apply Forall_cons; [unfold axis_edge; cbn [fst snd px py]; lia|]); constructor|];
  split; [apply is_int_dec; reflexivity|]; split; [exists k; reflexivity|];
  eexists; split; [vm_compute; reflexivity|]; exists x0, y0; vm_compute; discriminate.
Theorem C06_closing_edge_vertical_refuted : wrong_count [0; 0; 2; 2; 0; 3].
Proof. wrong 3%nat 5 5. Qed.
Print Assumptions C06_closing_edge_vertical_refuted.
Theorem C06_closing_edge_horizontal_refuted : wrong_count [0; 0; 5; 3; 2; 0].
Proof. wrong 3%nat 5 5. Qed.
Print Assumptions C06_closing_edge_horizontal_refuted.
(* two neighbouring edges of length zero lose a corner *)
Theorem C06_repeated_corner_refuted : wrong_count [0; 0; 2; 2; 2; 2; 1; 3].
Proof. wrong 4%nat 5 5. Qed.
Print Assumptions C06_repeated_corner_refuted.
(* the rectangle of all int coordinates overflows the area computation *)
Theorem C06_insert_large_polygon_refuted :
  exists p, poly_ok p /\ ps_insert_poly (ps_new Vertical) p false = Overflow.
Proof.
  exists (mk_poly90 [INT_MIN; INT_MIN; INT_MAX; INT_MAX] []). split; [|vm_compute; reflexivity].
  split; [|constructor]. split; [apply is_int_dec; reflexivity|]. right. left. split; [exists 2%nat; reflexivity|].
  split; [exists INT_MIN, INT_MIN, [], INT_MAX, INT_MAX; repeat split; unfold INT_MIN, INT_MAX; lia|apply ring_moves_dec; reflexivity].
Qed.
Print Assumptions C06_insert_large_polygon_refuted.
