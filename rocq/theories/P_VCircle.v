(* C71, C72: circle events of the Voronoi sweep. *)
From Coq Require Import Reals ZArith List Lia.
From Verif Require Import Base Units Outcome Scan90Spec Set90Spec GeoSpec Poly90Model VorSpec VorModel VDModel RobustSpec RobustModel
  VCircleSpec VCircleModel VCircleGeo VCircleProofs VCircleSeg VCircleExist.
From Coq Require Import Lra.
Import ListNotations.
Open Scope R_scope.

(* C71. A circle that meets three sites, in clockwise order, is the one that the
   formation functors compute: the lazy functor, whatever it recomputes, and the
   exact functor, which keeps what it is not told to recompute. No root of a
   negative number is taken and nothing is divided by zero. *)
Definition exact_of (f : cevent -> bool -> bool -> bool -> option cevent) (c : rpt) (r : R) : Prop :=
  forall e fx fy fl, exists e', f e fx fy fl = Some e' /\
    refreshed fx (ev_x e) (ev_x e') (rx c) /\ refreshed fy (ev_y e) (ev_y e') (ry c) /\ refreshed fl (ev_low e) (ev_low e') (rx c + r).

Theorem C71_three_points : forall s1 s2 s3 c r t1 t2 t3, 0 < r ->
  meets_point (e_p0 s1) c r t1 -> meets_point (e_p0 s2) c r t2 -> meets_point (e_p0 s3) c r t3 -> clockwise t1 t2 t3 ->
  (forall fx fy fl, lazy_ppp s1 s2 s3 fx fy fl = Some (event_of c r)) /\ exact_of (mp_ppp s1 s2 s3) c r.
Proof.
  intros s1 s2 s3 c r t1 t2 t3 R0 M1 M2 M3 CW. split.
  - intros. apply (lazy_ppp_ok s1 s2 s3 c r t1 t2 t3); assumption.
  - intros e fx fy fl. apply (mp_ppp_ok s1 s2 s3 c r t1 t2 t3); assumption.
Qed.
Print Assumptions C71_three_points.
(* index 2: the segment is between the points *)
Theorem C71_two_points : forall s1 s2 s3 i c r t1 t2 t3, 0 < r ->
  meets_point (e_p0 s1) c r t1 -> meets_point (e_p0 s2) c r t2 -> meets_segment (e_p0 s3) (e_p1 s3) c r t3 ->
  (if (i =? 2)%Z then clockwise t1 t3 t2 else clockwise t1 t2 t3) ->
  (forall fx fy fl, lazy_pps s1 s2 s3 i fx fy fl = Some (event_of c r)) /\ exact_of (mp_pps s1 s2 s3 i) c r.
Proof.
  intros s1 s2 s3 i c r t1 t2 t3 R0 M1 M2 M3 CW. split.
  - intros. apply (lazy_pps_ok s1 s2 s3 i c r t1 t2 t3); assumption.
  - intros e fx fy fl. apply (mp_pps_ok s1 s2 s3 i c r t1 t2 t3); assumption.
Qed.
Print Assumptions C71_two_points.
(* index 2: the point is between the segments *)
Theorem C71_one_point : forall s1 s2 s3 i c r t1 t2 t3, 0 < r ->
  meets_point (e_p0 s1) c r t1 -> meets_segment (e_p0 s2) (e_p1 s2) c r t2 -> meets_segment (e_p0 s3) (e_p1 s3) c r t3 ->
  (if (i =? 2)%Z then clockwise t2 t1 t3 else clockwise t1 t2 t3) ->
  (forall fx fy fl, lazy_pss s1 s2 s3 i fx fy fl = Some (event_of c r)) /\ exact_of (mp_pss s1 s2 s3 i) c r.
Proof.
  intros s1 s2 s3 i c r t1 t2 t3 R0 M1 M2 M3 CW. split.
  - intros. apply (lazy_pss_ok s1 s2 s3 i c r t1 t2 t3); assumption.
  - intros e fx fy fl. apply (mp_pss_ok s1 s2 s3 i c r t1 t2 t3); assumption.
Qed.
Print Assumptions C71_one_point.
Theorem C71_three_segments : forall s1 s2 s3 c r t1 t2 t3, 0 < r ->
  meets_segment (e_p0 s1) (e_p1 s1) c r t1 -> meets_segment (e_p0 s2) (e_p1 s2) c r t2 -> meets_segment (e_p0 s3) (e_p1 s3) c r t3 ->
  clockwise t1 t2 t3 ->
  (forall fx fy fl, lazy_sss s1 s2 s3 fx fy fl = Some (event_of c r)) /\ exact_of (mp_sss s1 s2 s3) c r.
Proof.
  intros s1 s2 s3 c r t1 t2 t3 R0 M1 M2 M3 CW. split.
  - intros. apply (lazy_sss_ok s1 s2 s3 c r t1 t2 t3); assumption.
  - intros e fx fy fl. apply (mp_sss_ok s1 s2 s3 c r t1 t2 t3); assumption.
Qed.
Print Assumptions C71_three_segments.

(* C72. Every circle that touches three sites, in the order in which they follow
   its rightmost point clockwise, is found. The sites carry the flags and indices
   that the builder gives them; the tolerant comparisons may miss a difference but
   must not invent one. *)
Definition site_flags (s : sev) : Prop := flagged (e_p0 s) (e_p1 s) (e_inv s).
Definition site_indices (s s' : sev) : Prop := e_sorted s = e_sorted s' -> one_segment (e_p0 s) (e_p1 s) (e_p0 s') (e_p1 s').
Theorem C72_found : forall less more fx fy fl s1 s2 s3 c r t1 t2 t3,
  (forall x y, less x y = true -> x < y) -> (forall x y, more x y = true -> y < x) ->
  site_flags s1 -> site_flags s2 -> site_flags s3 -> site_indices s1 s2 -> site_indices s2 s3 -> site_indices s1 s3 ->
  0 < r -> touches (e_p0 s1) (e_p1 s1) c r t1 -> touches (e_p0 s2) (e_p1 s2) c r t2 -> touches (e_p0 s3) (e_p1 s3) c r t3 ->
  from_right c r t1 t2 t3 ->
  circle_formation less more fx fy fl s1 s2 s3 = Some (Some (event_of c r)).
Proof. intros. apply (formation_ok less more fx fy fl s1 s2 s3 c r t1 t2 t3); assumption. Qed.
Print Assumptions C72_found.
(* three points: also, no circle is found that does not exist *)
Theorem C72_points : forall less more fx fy fl s1 s2 s3,
  sev_segment s1 = false -> sev_segment s2 = false -> sev_segment s3 = false ->
  let p := of_pt (e_p0 s1) in let q := of_pt (e_p0 s2) in let u := of_pt (e_p0 s3) in
  (clockwise p q u -> exists c r, 0 < r /\ meets_point (e_p0 s1) c r p /\ meets_point (e_p0 s2) c r q /\ meets_point (e_p0 s3) c r u /\
     circle_formation less more fx fy fl s1 s2 s3 = Some (Some (event_of c r))) /\
  (~ clockwise p q u -> circle_formation less more fx fy fl s1 s2 s3 = Some None).
Proof. intros. apply three_points; assumption. Qed.
Print Assumptions C72_points.
(* a segment and its own reverse never give a circle, whatever the third site *)
Theorem C72_own_reverse : forall less more fx fy fl s1 s2 s3,
  sev_segment s1 = true -> sev_segment s2 = true -> e_sorted s1 = e_sorted s2 ->
  circle_formation less more fx fy fl s1 s2 s3 = Some None /\ circle_formation less more fx fy fl s3 s1 s2 = Some None.
Proof.
  intros less more fx fy fl s1 s2 s3 S1 S2 E. unfold circle_formation. rewrite S1, S2. cbn [negb].
  unfold ex_pss, ex_sss. rewrite E, Nat.eqb_refl, andb_false_r. split; destruct (sev_segment s3); reflexivity.
Qed.
Print Assumptions C72_own_reverse.

(* ---------- the hypotheses are met ---------- *)
(* around the origin, radius 5 *)
Definition ex_pt (x y : Z) (i : nat) : sev := mk_sev (mk_pt x y) (mk_pt x y) i i 0 false.
Definition ex_seg (x y x' y' : Z) (i : nat) (inv : bool) : sev := mk_sev (mk_pt x y) (mk_pt x' y') i i 8 inv.
Definition ex_o : rpt := mk_rpt 0 0.
Definition ex_bottom := ex_seg 2 (-5) (-2) (-5) 1 true.
Definition ex_left := ex_seg (-5) (-2) (-5) 2 0 false.
Definition ex_top := ex_seg (-2) 5 2 5 2 false.
Lemma ex_point x y : IZR x * IZR x + IZR y * IZR y = 25 -> meets_point (mk_pt x y) ex_o 5 (mk_rpt (IZR x) (IZR y)).
Proof.
  intros H. split; [reflexivity|]. unfold rlen, rdot, rsub, ex_o. cbn [rx ry].
  replace ((0 - IZR x) * (0 - IZR x) + (0 - IZR y) * (0 - IZR y)) with (5 * 5) by lra. apply sqrt_square. lra.
Qed.
Ltac ex_segment := split; [intros E; injection E; lra|]; unfold rcross, rdot, rsub, of_pt, ex_o, rlen; cbn [rx ry px py e_p0 e_p1 ex_seg ex_bottom ex_left ex_top];
  split; [lra|]; split; [lra|]; split; [|lra]; unfold rdot; cbn [rx ry];
  match goal with |- sqrt ?u = 5 => replace u with (5 * 5) by lra; apply sqrt_square; lra end.
Lemma ex_m_bottom : meets_segment (e_p0 ex_bottom) (e_p1 ex_bottom) ex_o 5 (mk_rpt 0 (-5)).
Proof. ex_segment. Qed.
Lemma ex_m_left : meets_segment (e_p0 ex_left) (e_p1 ex_left) ex_o 5 (mk_rpt (-5) 0).
Proof. ex_segment. Qed.
Lemma ex_m_top : meets_segment (e_p0 ex_top) (e_p1 ex_top) ex_o 5 (mk_rpt 0 5).
Proof. ex_segment. Qed.
Example C71_case_three_points : lazy_ppp (ex_pt 3 (-4) 0) (ex_pt (-5) 0 1) (ex_pt 3 4 2) true false true = Some (mk_cevent 0 0 (0 + 5)).
Proof.
  refine (proj1 (C71_three_points _ _ _ ex_o 5 (mk_rpt 3 (-4)) (mk_rpt (-5) 0) (mk_rpt 3 4) _ _ _ _ _) _ _ _); [lra| | | |].
  - apply (ex_point 3 (-4)). lra.
  - apply (ex_point (-5) 0). lra.
  - apply (ex_point 3 4). lra.
  - unfold clockwise, rcross, rsub. cbn [rx ry]. lra.
Qed.
Example C71_case_two_points : lazy_pps (ex_pt 3 (-4) 0) (ex_pt (-5) 0 1) ex_top 3 false false false = Some (mk_cevent 0 0 (0 + 5)).
Proof.
  refine (proj1 (C71_two_points _ _ _ 3 ex_o 5 (mk_rpt 3 (-4)) (mk_rpt (-5) 0) (mk_rpt 0 5) _ _ _ _ _) _ _ _); [lra| | |apply ex_m_top|].
  - apply (ex_point 3 (-4)). lra.
  - apply (ex_point (-5) 0). lra.
  - unfold clockwise, rcross, rsub. cbn [Z.eqb Pos.eqb rx ry]. lra.
Qed.
(* parallel segments *)
Example C71_case_parallel : lazy_pss (ex_pt (-5) 0 1) ex_bottom ex_top 2 true true true = Some (mk_cevent 0 0 (0 + 5)).
Proof.
  refine (proj1 (C71_one_point _ _ _ 2 ex_o 5 (mk_rpt (-5) 0) (mk_rpt 0 (-5)) (mk_rpt 0 5) _ _ _ _ _) _ _ _); [lra| |apply ex_m_bottom|apply ex_m_top|].
  - apply (ex_point (-5) 0). lra.
  - unfold clockwise, rcross, rsub. cbn [Z.eqb Pos.eqb rx ry]. lra.
Qed.
(* segments on crossing lines *)
Example C71_case_crossing : lazy_pss (ex_pt 3 4 3) ex_bottom ex_left 3 true false true = Some (mk_cevent 0 0 (0 + 5)).
Proof.
  refine (proj1 (C71_one_point _ _ _ 3 ex_o 5 (mk_rpt 3 4) (mk_rpt 0 (-5)) (mk_rpt (-5) 0) _ _ _ _ _) _ _ _); [lra| |apply ex_m_bottom|apply ex_m_left|].
  - apply (ex_point 3 4). lra.
  - unfold clockwise, rcross, rsub. cbn [Z.eqb Pos.eqb rx ry]. lra.
Qed.
Example C71_case_three_segments : lazy_sss ex_bottom ex_left ex_top false true true = Some (mk_cevent 0 0 (0 + 5)).
Proof.
  refine (proj1 (C71_three_segments _ _ _ ex_o 5 (mk_rpt 0 (-5)) (mk_rpt (-5) 0) (mk_rpt 0 5) _ ex_m_bottom ex_m_left ex_m_top _) _ _ _); [lra|].
  unfold clockwise, rcross, rsub. cbn [rx ry]. lra.
Qed.
Definition ex_less (x y : R) : bool := if Rlt_dec x y then true else false.
Example C72_case_segments : circle_formation ex_less (fun x y => ex_less y x) false false false ex_bottom ex_left ex_top = Some (Some (mk_cevent 0 0 (0 + 5))).
Proof.
  apply (C72_found _ _ _ _ _ ex_bottom ex_left ex_top ex_o 5 (mk_rpt 0 (-5)) (mk_rpt (-5) 0) (mk_rpt 0 5)).
  - intros x y. unfold ex_less. destruct (Rlt_dec x y); [auto|discriminate].
  - intros x y. unfold ex_less. destruct (Rlt_dec y x); [auto|discriminate].
  - intros _. left. cbn. lia.
  - intros _. right. cbn. lia.
  - intros _. left. cbn. lia.
  - intros E. discriminate E.
  - intros E. discriminate E.
  - intros E. discriminate E.
  - lra.
  - split; [right; split; [discriminate|apply ex_m_bottom]|]. exists (1 / 2). cbn. lra.
  - split; [right; split; [discriminate|apply ex_m_left]|]. exists (1 / 2). cbn. lra.
  - split; [right; split; [discriminate|apply ex_m_top]|]. exists (1 / 2). cbn. lra.
  - split; [|right]; unfold clockwise, rcross, rsub; cbn [rx ry ex_o]; lra.
Qed.
Example C72_case_mixed : circle_formation ex_less (fun x y => ex_less y x) true true true ex_bottom (ex_pt (-5) 0 0) (ex_pt 3 4 3) = Some (Some (mk_cevent 0 0 (0 + 5))).
Proof.
  apply (C72_found _ _ _ _ _ ex_bottom (ex_pt (-5) 0 0) (ex_pt 3 4 3) ex_o 5 (mk_rpt 0 (-5)) (mk_rpt (-5) 0) (mk_rpt 3 4)).
  - intros x y. unfold ex_less. destruct (Rlt_dec x y); [auto|discriminate].
  - intros x y. unfold ex_less. destruct (Rlt_dec y x); [auto|discriminate].
  - intros _. left. cbn. lia.
  - intros N. exfalso. apply N. reflexivity.
  - intros N. exfalso. apply N. reflexivity.
  - intros E. discriminate E.
  - intros E. discriminate E.
  - intros E. discriminate E.
  - lra.
  - split; [right; split; [discriminate|apply ex_m_bottom]|]. exists (1 / 2). cbn. lra.
  - split; [left; split; [reflexivity|apply (ex_point (-5) 0); lra]|]. exists 0. cbn. lra.
  - split; [left; split; [reflexivity|apply (ex_point 3 4); lra]|]. exists 0. cbn. lra.
  - split; [|right]; unfold clockwise, rcross, rsub; cbn [rx ry ex_o]; lra.
Qed.
Example C72_case_none : forall less more, circle_formation less more true true true (ex_pt 3 4 2) (ex_pt (-5) 0 1) (ex_pt 3 (-4) 0) = Some None.
Proof.
  intros less more. apply C72_points; try reflexivity. unfold clockwise, rcross, rsub, of_pt. cbn [rx ry px py e_p0 ex_pt]. lra.
Qed.
