(* C73: the distance predicate of the Voronoi sweep. *)
From Coq Require Import Reals ZArith List Lia.
From Verif Require Import Base Units Outcome Scan90Spec Set90Spec GeoSpec Poly90Model VorSpec VorModel VDModel RobustSpec RobustModel
  VCircleSpec VCircleModel VCircleGeo VCircleProofs VCircleExist VArcSpec VArcModel VArcProofs.
From Coq Require Import Lra.
Open Scope R_scope.

(* C73. A new point is compared with the height h at which the beach line of the
   sweep line through the point goes over from the arc of the lower site to the arc
   of the upper site: true, the search goes on upwards, exactly if the point is
   above h. If the lower site is a segment and the upper site a point, also if it
   is at the height h. Nothing is divided by zero, no root of a negative number is
   taken. The sites carry the flags that the builder gives them. *)
Definition before (s : sev) (p : point) : Prop := has_arc (e_p0 s) (e_p1 s) (IZR (px p)).
Definition inverse_flag (s : sev) : Prop := flagged (e_p0 s) (e_p1 s) (e_inv s).
Definition is_point (s : sev) : Prop := e_p0 s = e_p1 s.
Definition crossing (l r : sev) (p : point) (h : R) : Prop := breakpoint (e_p0 l) (e_p1 l) (e_p0 r) (e_p1 r) (IZR (px p)) h.
Theorem C73_side : forall l r p h, before l p -> before r p -> inverse_flag l -> inverse_flag r ->
  (~ is_point l -> ~ is_point r -> e_sorted l <> e_sorted r) -> crossing l r p h ->
  exists v, distance_predicate l r p = Some v /\
    (~ (~ is_point l /\ is_point r) -> (v = true <-> h < IZR (py p))) /\
    (~ is_point l /\ is_point r -> (v = true <-> h <= IZR (py p))).
Proof. intros l r p h HL HR FL FR NI BP. apply predicate_ok; assumption. Qed.
Print Assumptions C73_side.
(* a segment and its own reverse: the search goes on upwards exactly if the new
   point is beyond the lower of the two sides, where the arc of that side would be
   behind the sweep line *)
Theorem C73_same_segment : forall l r p d, before l p -> ~ is_point l -> ~ is_point r -> e_sorted l = e_sorted r ->
  arc (e_p0 l) (e_p1 l) (IZR (px p)) (IZR (py p)) d ->
  exists v, distance_predicate l r p = Some v /\ (v = true <-> 0 < d).
Proof.
  intros l r p d HL NL NR SI AD. unfold distance_predicate.
  destruct (sev_segment l) eqn:SL; [|apply sev_point_iff in SL; contradiction].
  destruct (sev_segment r) eqn:SR; [|apply sev_point_iff in SR; contradiction].
  cbn [negb]. apply same_ok; assumption.
Qed.
Print Assumptions C73_same_segment.
(* the arcs are graphs over the heights: at each height there is one place *)
Theorem C73_arcs : forall p q X y, has_arc p q X -> exists d, arc p q X y d /\ forall e, arc p q X y e -> e = d.
Proof. intros p q X y H. exists (dist X p q y). apply dist_arc. exact H. Qed.
Print Assumptions C73_arcs.

(* the cases *)
Lemma breakpoint_of pl ql pr qr X b eps : has_arc pl ql X -> has_arc pr qr X -> 0 < eps ->
  dist X pl ql b = dist X pr qr b ->
  (forall y, b < y < b + eps -> dist X pl ql y < dist X pr qr y) -> (forall y, b - eps < y < b -> dist X pr qr y < dist X pl ql y) ->
  breakpoint pl ql pr qr X b.
Proof.
  intros HL HR E0 M U D. split.
  - intros d e Hd He. rewrite (proj2 (dist_arc X pl ql b HL) d Hd), (proj2 (dist_arc X pr qr b HR) e He). exact M.
  - exists eps. split; [exact E0|]. split; intros y d e Hy Hd He;
      rewrite (proj2 (dist_arc X pl ql y HL) d Hd), (proj2 (dist_arc X pr qr y HR) e He); auto.
Qed.
Definition ex_p (x y : Z) (i : nat) : sev := mk_sev (mk_pt x y) (mk_pt x y) i 0 0 false.
Definition ex_v (i : nat) : sev := mk_sev (mk_pt 0 0) (mk_pt 0 10) i 0 0 false.
Lemma ex_before_p x y i p : (x < px p)%Z -> before (ex_p x y i) p.
Proof. intros H. split; [intros _; cbn; apply IZR_lt; exact H|intros N; exfalso; apply N; reflexivity]. Qed.
Lemma ex_before_v i p : (0 < px p)%Z -> before (ex_v i) p.
Proof. intros H. split; [intros E; discriminate E|]. intros _ _. split; [reflexivity|]. cbn. apply IZR_lt. exact H. Qed.
Lemma ex_flag_p x y i : inverse_flag (ex_p x y i).
Proof. intros N. exfalso. apply N. reflexivity. Qed.
Lemma ex_flag_v i : inverse_flag (ex_v i).
Proof. intros _. right. cbn. lia. Qed.
Lemma ex_dist_p x y X z : dist X (mk_pt x y) (mk_pt x y) z = ((IZR x - X) * (IZR x - X) + (IZR y - z) * (IZR y - z)) / (2 * (IZR x - X)).
Proof. unfold dist. rewrite (proj2 (pt_same_iff _ _) eq_refl). reflexivity. Qed.
Lemma ex_dist_v X z : dist X (mk_pt 0 0) (mk_pt 0 10) z = - X / 2.
Proof.
  unfold dist, ds. cbn [pt_same px py Z.eqb andb]. replace (len (mk_pt 0 0) (mk_pt 0 10)) with 10; [field|].
  symmetry. unfold len, rlen, rdot, rsub, of_pt. cbn [rx ry px py]. apply sqrt_of_sq; lra.
Qed.
(* the arcs of (0, 0) and (1, 1) with the sweep line x = 2 meet at 0 and at 4 *)
Lemma ex_cross_pp y : crossing (ex_p 0 0 0) (ex_p 1 1 1) (mk_pt 2 y) 0.
Proof.
  apply (breakpoint_of _ _ _ _ _ _ 1).
  - apply (ex_before_p 0 0 0 (mk_pt 2 y)). reflexivity.
  - apply (ex_before_p 1 1 1 (mk_pt 2 y)). reflexivity.
  - lra.
  - cbn [e_p0 e_p1 ex_p px]. rewrite !ex_dist_p. lra.
  - intros z Hz. cbn [e_p0 e_p1 ex_p px]. rewrite !ex_dist_p. assert (z * (z - 4) < 0) by (apply mul_np; lra). lra.
  - intros z Hz. cbn [e_p0 e_p1 ex_p px]. rewrite !ex_dist_p. assert (0 < z * (z - 4)) by (apply mul_nn'; lra). lra.
Qed.
Example C73_case_above : distance_predicate (ex_p 0 0 0) (ex_p 1 1 1) (mk_pt 2 3) = Some true.
Proof.
  destruct (C73_side (ex_p 0 0 0) (ex_p 1 1 1) (mk_pt 2 3) 0) as [v [E [V _]]];
    [apply ex_before_p; reflexivity|apply ex_before_p; reflexivity|apply ex_flag_p|apply ex_flag_p|intros N; exfalso; apply N; reflexivity|apply ex_cross_pp|].
  rewrite E. apply f_equal. apply V; [intros [N _]; apply N; reflexivity|]. cbn [py]. lra.
Qed.
Example C73_case_below : distance_predicate (ex_p 0 0 0) (ex_p 1 1 1) (mk_pt 2 0) = Some false.
Proof.
  destruct (C73_side (ex_p 0 0 0) (ex_p 1 1 1) (mk_pt 2 0) 0) as [v [E [V _]]];
    [apply ex_before_p; reflexivity|apply ex_before_p; reflexivity|apply ex_flag_p|apply ex_flag_p|intros N; exfalso; apply N; reflexivity|apply ex_cross_pp|].
  rewrite E. apply f_equal. destruct v; [|reflexivity]. exfalso.
  assert (0 < IZR 0) by (apply V; [intros [N _]; apply N; reflexivity|reflexivity]). lra.
Qed.
(* the segment from (0, 0) to (0, 10) and the point (1, 5): 4 and 6 *)
Lemma ex_cross_sp y : crossing (ex_v 0) (ex_p 1 5 1) (mk_pt 2 y) 4.
Proof.
  apply (breakpoint_of _ _ _ _ _ _ 1).
  - apply (ex_before_v 0 (mk_pt 2 y)). reflexivity.
  - apply (ex_before_p 1 5 1 (mk_pt 2 y)). reflexivity.
  - lra.
  - cbn [e_p0 e_p1 ex_p ex_v px]. rewrite ex_dist_p, ex_dist_v. lra.
  - intros z Hz. cbn [e_p0 e_p1 ex_p ex_v px]. rewrite ex_dist_p, ex_dist_v. assert ((6 - z) * (4 - z) < 0) by (apply mul_np; lra). lra.
  - intros z Hz. cbn [e_p0 e_p1 ex_p ex_v px]. rewrite ex_dist_p, ex_dist_v. assert (0 < (6 - z) * (4 - z)) by (apply mul_pp; lra). lra.
Qed.
Lemma ex_cross_ps y : crossing (ex_p 1 5 1) (ex_v 0) (mk_pt 2 y) 6.
Proof.
  apply (breakpoint_of _ _ _ _ _ _ 1).
  - apply (ex_before_p 1 5 1 (mk_pt 2 y)). reflexivity.
  - apply (ex_before_v 0 (mk_pt 2 y)). reflexivity.
  - lra.
  - cbn [e_p0 e_p1 ex_p ex_v px]. rewrite ex_dist_p, ex_dist_v. lra.
  - intros z Hz. cbn [e_p0 e_p1 ex_p ex_v px]. rewrite ex_dist_p, ex_dist_v. assert (0 < (z - 6) * (z - 4)) by (apply mul_pp; lra). lra.
  - intros z Hz. cbn [e_p0 e_p1 ex_p ex_v px]. rewrite ex_dist_p, ex_dist_v. assert ((z - 4) * (z - 6) < 0) by (apply mul_np; lra). lra.
Qed.
Example C73_case_segment_above : distance_predicate (ex_p 1 5 1) (ex_v 0) (mk_pt 2 6) = Some false /\ distance_predicate (ex_p 1 5 1) (ex_v 0) (mk_pt 2 7) = Some true.
Proof.
  assert (K : forall y, exists v, distance_predicate (ex_p 1 5 1) (ex_v 0) (mk_pt 2 y) = Some v /\ (v = true <-> 6 < IZR y)).
  { intros y. destruct (C73_side (ex_p 1 5 1) (ex_v 0) (mk_pt 2 y) 6) as [v [E [V _]]];
      [apply ex_before_p; reflexivity|apply ex_before_v; reflexivity|apply ex_flag_p|apply ex_flag_v|intros N; exfalso; apply N; reflexivity|apply ex_cross_ps|].
    exists v. split; [exact E|]. apply V. intros [N _]. apply N. reflexivity. }
  split.
  - destruct (K 6%Z) as [v [-> V]]. apply f_equal. destruct v; [|reflexivity]. exfalso. assert (6 < IZR 6) by (apply V; reflexivity). lra.
  - destruct (K 7%Z) as [v [-> V]]. apply f_equal. apply V. lra.
Qed.
(* the two sides of a segment: below and above it *)
Definition ex_flat : sev := mk_sev (mk_pt 0 0) (mk_pt 4 3) 2 0 0 false.
Lemma ex_flat_len : rlen (rsub (of_pt (mk_pt 4 3)) (of_pt (mk_pt 0 0))) = 5.
Proof. unfold rlen, rdot, rsub, of_pt. cbn [rx ry px py]. apply sqrt_of_sq; lra. Qed.
Example C73_case_same : distance_predicate ex_flat (sev_inverse ex_flat) (mk_pt 1 1) = Some true.
Proof.
  destruct (C73_same_segment ex_flat (sev_inverse ex_flat) (mk_pt 1 1) (1 / 8)) as [v [E V]].
  - split; [intros N; discriminate N|]. intros _ N. discriminate N.
  - intros N. discriminate N.
  - intros N. discriminate N.
  - reflexivity.
  - right. split; [discriminate|]. unfold segment_arc. cbn [e_p0 e_p1 ex_flat px py]. rewrite ex_flat_len. unfold rcross, rsub, of_pt. cbn [rx ry px py]. lra.
  - rewrite E. apply f_equal. apply V. lra.
Qed.

(* The comment of the predicate promises false whenever the horizontal line goes
   through the intersection of the arcs. If the lower site is a segment and the
   upper site a point, it is true. *)
Theorem C73_false_at_crossing_refuted : exists l r p, before l p /\ before r p /\ inverse_flag l /\ inverse_flag r /\
  (~ is_point l -> ~ is_point r -> e_sorted l <> e_sorted r) /\ crossing l r p (IZR (py p)) /\ distance_predicate l r p = Some true.
Proof.
  exists (ex_v 0), (ex_p 1 5 1), (mk_pt 2 4).
  assert (B1 : before (ex_v 0) (mk_pt 2 4)) by (apply ex_before_v; reflexivity).
  assert (B2 : before (ex_p 1 5 1) (mk_pt 2 4)) by (apply ex_before_p; reflexivity).
  split; [exact B1|]. split; [exact B2|]. split; [apply ex_flag_v|]. split; [apply ex_flag_p|]. split; [discriminate|].
  split; [apply ex_cross_sp|].
  destruct (C73_side (ex_v 0) (ex_p 1 5 1) (mk_pt 2 4) 4 B1 B2 (ex_flag_v 0) (ex_flag_p 1 5 1) ltac:(discriminate) (ex_cross_sp 4)) as [v [E [_ V]]].
  rewrite E. apply f_equal. apply V; [split; [intros N; discriminate N|reflexivity]|]. cbn [py]. lra.
Qed.
Print Assumptions C73_false_at_crossing_refuted.
