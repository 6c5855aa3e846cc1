(* C56 to C59: intersect_segments splits segments at their intersections on the
   integer grid. *)
From Verif Require Import Base Units Outcome Scan90Spec Poly90Spec GeoSpec ScanBaseModel ScanBaseCross SnapModel SnapSpec SnapProofs SnapCor.
From Coq Require Import Reals Lra Sorting.Sorted.

Definition all_fit (l : list seg) : Prop := forall s, In s l -> fits s.
Lemma all_small l : all_fit l -> forall s, In s l -> seg_small s.
Proof. intros H s X. apply fits_small, H, X. Qed.
Lemma all_fit_of l : Forall fits l -> all_fit l.
Proof. intros H s. apply (proj1 (Forall_forall _ _) H). Qed.

(* three crossing segments, one vertical, one given twice in both directions *)
Definition demo_l : list seg :=
  [ mk_seg (mk_pt 0 0) (mk_pt 10 7); mk_seg (mk_pt 9 0) (mk_pt 1 8); mk_seg (mk_pt 5 (-4)) (mk_pt 5 9);
    mk_seg (mk_pt 10 7) (mk_pt 0 0); mk_seg (mk_pt 3 3) (mk_pt 3 3); mk_seg (mk_pt (-3) 6) (mk_pt 12 6) ].
Definition demo_out : list (seg * Z) := match intersect_segments demo_l with Ok o => o | _ => [] end.
Lemma demo_fit : all_fit demo_l.
Proof. apply all_fit_of. repeat (constructor; [unfold fits, coord_fits; cbn; lia|]). constructor. Qed.
Lemma demo_runs : intersect_segments demo_l = Ok demo_out.
Proof. vm_compute. reflexivity. Qed.

(* it ends without overflow or undefined behaviour; every piece carries the index
   of a segment, and the pieces are in the order of the segments *)
Theorem C56_defined : forall l, all_fit l -> exists out, intersect_segments l = Ok out /\
  (forall s i, In (s, i) out -> 0 <= i < Z.of_nat (length l)) /\ StronglySorted Z.le (map snd out).
Proof.
  intros l H. destruct (snap_main l (all_small l H)) as [out [hot [w [E [A [B _]]]]]]. exists out. split; [exact E|]. split; [|exact B]. intros s i X. apply (A (s, i) X).
Qed.
Print Assumptions C56_defined.
(* no two pieces meet except at end points of both; a segment given twice, or
   segments that overlap, have the same pieces there *)
Theorem C56_noded : forall l out, all_fit l -> intersect_segments l = Ok out -> noded (map fst out).
Proof. intros l out H E. apply (result_noded l out); [apply all_small; exact H|exact E]. Qed.
Print Assumptions C56_noded.
Example C56_demo : all_fit demo_l /\ intersect_segments demo_l = Ok demo_out /\
  pieces 0 demo_out = [ mk_seg (mk_pt 0 0) (mk_pt 5 3); mk_seg (mk_pt 5 3) (mk_pt 5 4); mk_seg (mk_pt 5 4) (mk_pt 8 6); mk_seg (mk_pt 8 6) (mk_pt 10 7) ] /\ length demo_out = 20%nat.
Proof. split; [exact demo_fit|]. split; [exact demo_runs|]. vm_compute. auto. Qed.

(* the pieces of a segment lead from its lower left end to the other one, without
   coming twice to the same point; only the pieces matter, not the direction of
   the segment *)
Theorem C57_path : forall l out n s, all_fit l -> intersect_segments l = Ok out -> nth_error l n = Some s ->
  path (lo_end s) (pieces (Z.of_nat n) out) (hi_end s) /\ NoDup (lo_end s :: map s_high (pieces (Z.of_nat n) out)).
Proof. intros l out n s H E N. apply (result_path l out (all_small l H) E n s N). Qed.
Print Assumptions C57_path.
(* a segment that is a point has no pieces *)
Theorem C57_point : forall l out n p, all_fit l -> intersect_segments l = Ok out -> nth_error l n = Some (mk_seg p p) -> pieces (Z.of_nat n) out = [].
Proof.
  intros l out n p H E N. destruct (C57_path l out n _ H E N) as [P D]. unfold lo_end, hi_end in *. cbn [s_low s_high] in *.
  replace (if lex_lt p p then p else p) with p in * by (destruct (lex_lt p p); reflexivity).
  destruct (pieces (Z.of_nat n) out) as [|t ts] eqn:EP; [reflexivity|]. exfalso. clear - P D. cbn [path map] in *. destruct P as [_ P].
  inversion D as [|? ? D1 D2]; subst. apply D1. clear D D1 D2. revert t P. induction ts as [|u ts IH]; intros t P; cbn [path map] in *; [left; exact P|]. right. apply IH. apply P.
Qed.
Print Assumptions C57_point.
Example C57_demo : nth_error demo_l 4 = Some (mk_seg (mk_pt 3 3) (mk_pt 3 3)) /\ nth_error demo_l 1 = Some (mk_seg (mk_pt 9 0) (mk_pt 1 8)) /\
  pieces 1 demo_out = [ mk_seg (mk_pt 1 8) (mk_pt 3 6); mk_seg (mk_pt 3 6) (mk_pt 5 4); mk_seg (mk_pt 5 4) (mk_pt 5 3); mk_seg (mk_pt 5 3) (mk_pt 9 0) ].
Proof. vm_compute. auto. Qed.

(* every point of a piece is less than one unit away from its segment, and every
   point of the segment from its pieces *)
Theorem C58_near : forall l out n s t x y, all_fit l -> intersect_segments l = Ok out -> nth_error l n = Some s ->
  In t (pieces (Z.of_nat n) out) -> on_r t x y -> exists x' y', on_r s x' y' /\ within x y x' y'.
Proof. intros l out n s t x y H E N. apply (result_near l out (all_small l H) E n s t x y N). Qed.
Print Assumptions C58_near.
Theorem C58_cover : forall l out n s x' y', all_fit l -> intersect_segments l = Ok out -> nth_error l n = Some s -> s_low s <> s_high s ->
  on_r s x' y' -> exists t x y, In t (pieces (Z.of_nat n) out) /\ on_r t x y /\ within x y x' y'.
Proof. intros l out n s x' y' H E N. apply (result_cover l out (all_small l H) E n s x' y' N). Qed.
Print Assumptions C58_cover.
(* horizontal and vertical segments stay where they are *)
Theorem C58_axis_parallel : forall l out n s t x y, all_fit l -> intersect_segments l = Ok out -> nth_error l n = Some s ->
  px (s_low s) = px (s_high s) \/ py (s_low s) = py (s_high s) -> In t (pieces (Z.of_nat n) out) -> on_r t x y -> on_r s x y.
Proof. intros l out n s t x y H E N. apply (result_axis l out (all_small l H) E n s t x y N). Qed.
Print Assumptions C58_axis_parallel.
Example C58_demo : nth_error demo_l 2 = Some (mk_seg (mk_pt 5 (-4)) (mk_pt 5 9)) /\ In (mk_seg (mk_pt 5 3) (mk_pt 5 4)) (pieces 2 demo_out) /\
  on_r (mk_seg (mk_pt 5 3) (mk_pt 5 4)) 5 (7 / 2).
Proof. split; [reflexivity|]. split; [vm_compute; tauto|]. exists (/ 2)%R. cbn [s_low s_high px py]. lra. Qed.

(* where a segment is split: it is split at a vertex of the result exactly if it
   passes the unit square of it *)
Theorem C59_vertices : forall l out n s c, all_fit l -> intersect_segments l = Ok out -> nth_error l n = Some s ->
  (In c (lo_end s :: map s_high (pieces (Z.of_nat n) out)) <->
   (exists m t, nth_error l m = Some t /\ In c (lo_end t :: map s_high (pieces (Z.of_nat m) out))) /\
   exists x y, on_r s x y /\ within (IZR (px c)) (IZR (py c)) x y).
Proof. intros l out n s c H E N. apply (result_hot l out (all_small l H) E n s c N). Qed.
Print Assumptions C59_vertices.
(* a vertex is an end of a segment, or a common point of two segments, rounded *)
Theorem C59_origin : forall l out n s c, all_fit l -> intersect_segments l = Ok out -> nth_error l n = Some s ->
  In c (lo_end s :: map s_high (pieces (Z.of_nat n) out)) ->
  (exists t, In t l /\ (c = s_low t \/ c = s_high t)) \/
  (exists i j t t' x y, i <> j /\ nth_error l i = Some t /\ nth_error l j = Some t' /\ on_r t x y /\ on_r t' x y /\ rounded c x y).
Proof. intros l out n s c H E N. apply (result_origin l out (all_small l H) E n s c N). Qed.
Print Assumptions C59_origin.
Example C59_demo : In (mk_pt 5 4) (lo_end (mk_seg (mk_pt 9 0) (mk_pt 1 8)) :: map s_high (pieces 1 demo_out)).
Proof. vm_compute. tauto. Qed.

(* without the limit of the coordinates the first abscissa plus one overflows *)
Theorem C56_at_limit_refuted : exists l, (forall s, In s l -> seg_int s) /\ intersect_segments l = Overflow.
Proof.
  exists [mk_seg (mk_pt INT_MAX 0) (mk_pt INT_MAX 5)]. split; [|vm_compute; reflexivity]. intros s [<-|[]]. unfold seg_int, pt_int, is_int, INT_MIN, INT_MAX. cbn. lia.
Qed.
Print Assumptions C56_at_limit_refuted.
(* ... and without the limit of the differences the differences overflow *)
Theorem C56_long_refuted : exists l, (forall s, In s l -> seg_int s /\ px (s_high s) < INT_MAX /\ px (s_low s) < INT_MAX) /\ intersect_segments l = Overflow.
Proof.
  exists [mk_seg (mk_pt (- 2000000000) 0) (mk_pt 2000000000 10); mk_seg (mk_pt 0 0) (mk_pt 1 20)]. split; [|vm_compute; reflexivity].
  intros s [<-|[<-|[]]]; unfold seg_int, pt_int, is_int, INT_MIN, INT_MAX; cbn; lia.
Qed.
Print Assumptions C56_long_refuted.
(* the documented postcondition, without the exception for equal pieces, is false:
   pieces of overlapping segments are repeated *)
Theorem C56_distinct_refuted : exists l out x y, all_fit l /\ intersect_segments l = Ok out /\
  exists s t i j, In (s, i) out /\ In (t, j) out /\ i <> j /\ on_r s x y /\ on_r t x y /\ ~ end_r s x y.
Proof.
  exists [mk_seg (mk_pt 0 0) (mk_pt 4 0); mk_seg (mk_pt 2 0) (mk_pt 6 0)].
  exists [(mk_seg (mk_pt 0 0) (mk_pt 2 0), 0); (mk_seg (mk_pt 2 0) (mk_pt 4 0), 0); (mk_seg (mk_pt 2 0) (mk_pt 4 0), 1); (mk_seg (mk_pt 4 0) (mk_pt 6 0), 1)], 3%R, 0%R.
  split; [apply all_fit_of; repeat (constructor; [unfold fits, coord_fits; cbn; lia|]); constructor|]. split; [vm_compute; reflexivity|].
  exists (mk_seg (mk_pt 2 0) (mk_pt 4 0)), (mk_seg (mk_pt 2 0) (mk_pt 4 0)), 0, 1. split; [cbn; tauto|]. split; [cbn; tauto|]. split; [lia|].
  assert (O : on_r (mk_seg (mk_pt 2 0) (mk_pt 4 0)) 3 0) by (exists (/ 2)%R; cbn [s_low s_high px py]; lra). split; [exact O|]. split; [exact O|]. unfold end_r, at_r. cbn [s_low s_high px py]. lra.
Qed.
Print Assumptions C56_distinct_refuted.
