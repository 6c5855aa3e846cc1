(* Lemmas about rectangles: point sets, arithmetic, distances. *)
From Verif Require Import Base Scan90Spec Set90Spec Set90Model GeoSpec IvlModel IvlProofs RectModel.

Lemma rect_ok_ivls r : rect_ok r <-> ivl_ok (horizontal r) /\ ivl_ok (vertical r).
Proof. unfold rect_ok, ivl_ok, horizontal, vertical; cbn [lo hi]. reflexivity. Qed.
Lemma horizontal_of h v : horizontal (r_of_ivls h v) = h.
Proof. destruct h; reflexivity. Qed.
Lemma vertical_of h v : vertical (r_of_ivls h v) = v.
Proof. destruct v; reflexivity. Qed.
Lemma horizontal_set_h r i : horizontal (r_set r Horizontal i) = i.
Proof. destruct i; reflexivity. Qed.
Lemma horizontal_set_v r i : horizontal (r_set r Vertical i) = horizontal r.
Proof. destruct r; reflexivity. Qed.
Lemma vertical_set_v r i : vertical (r_set r Vertical i) = i.
Proof. destruct i; reflexivity. Qed.
Lemma vertical_set_h r i : vertical (r_set r Horizontal i) = vertical r.
Proof. destruct r; reflexivity. Qed.
Lemma in_ivl_lo i : ivl_ok i -> in_ivl true i (inject_Z (lo i)).
Proof. unfold ivl_ok, in_ivl. rewrite !Zle_Q. lia. Qed.

(* ---------- predicates ---------- *)
Lemma r_contains_spec r s touch : rect_ok s ->
  (r_contains r s touch = true <-> forall q, in_rectq true s q -> in_rectq touch r q).
Proof.
  intros O. rewrite rect_ok_ivls in O; destruct O as [Oh Ov]. unfold r_contains. rewrite andb_true_iff, !contains_i_spec by assumption. split.
  - intros [A B] q [C D]. split; [apply A|apply B]; assumption.
  - intros H. split; intros q K.
    + destruct (H (q, inject_Z (lo (vertical s)))) as [A _]; [split; [exact K|apply in_ivl_lo; exact Ov]|exact A].
    + destruct (H (inject_Z (lo (horizontal s)), q)) as [_ A]; [split; [apply in_ivl_lo; exact Oh|exact K]|exact A].
Qed.
Lemma r_contains_pt_spec r p touch : r_contains_pt r p touch = true <-> in_rectq touch r (qpt p).
Proof. unfold r_contains_pt, in_rectq. rewrite andb_true_iff, !contains_v_spec. reflexivity. Qed.
Lemma r_intersects_touch r s : rect_ok r -> rect_ok s ->
  (r_intersects r s true = true <-> exists q, in_rectq true r q /\ in_rectq true s q).
Proof.
  intros A B. rewrite rect_ok_ivls in A; destruct A as [A1 A2]. rewrite rect_ok_ivls in B; destruct B as [B1 B2]. unfold r_intersects.
  rewrite andb_true_iff, !intersects_touch by assumption. split.
  - intros [[x [H K]] [y [H' K']]]. exists (x, y). split; split; assumption.
  - intros [[x y] [[H H'] [K K']]]. cbn [fst snd] in *. split; [exists x|exists y]; split; assumption.
Qed.
Lemma r_intersects_open r s : pos_area r -> pos_area s ->
  (r_intersects r s false = true <-> exists q, in_rectq false r q /\ in_rectq false s q).
Proof.
  unfold pos_area. intros [A1 A2] [B1 B2]. unfold r_intersects.
  rewrite andb_true_iff, !intersects_open by (cbn [lo hi]; assumption). split.
  - intros [[x [H K]] [y [H' K']]]. exists (x, y). split; split; assumption.
  - intros [[x y] [[H H'] [K K']]]. cbn [fst snd] in *. split; [exists x|exists y]; split; assumption.
Qed.
Lemma r_intersects_sym r s touch : r_intersects r s touch = r_intersects s r touch.
Proof. unfold r_intersects. rewrite (intersects_sym (horizontal r)), (intersects_sym (vertical r)). reflexivity. Qed.

Lemma boundary_pt r x y : on_boundary r (inject_Z x, inject_Z y) <->
  xl r <= x <= xh r /\ yl r <= y <= yh r /\ (x = xl r \/ x = xh r \/ y = yl r \/ y = yh r).
Proof.
  unfold on_boundary, in_rectq, in_ivl, horizontal, vertical; cbn [lo hi fst snd]. rewrite !Zle_Q, !Zlt_Q. lia.
Qed.
Lemma r_boundaries_touch r s : rect_ok r -> rect_ok s ->
  (r_boundaries_intersect r s true = true <-> exists q, on_boundary r q /\ on_boundary s q).
Proof.
  intros A B. unfold r_boundaries_intersect. rewrite !andb_true_iff, !negb_true_iff. split.
  - intros [[H K] L].
    unfold r_intersects, r_contains, contains_i, contains_v, intersects_i, horizontal, vertical, rect_ok in *; cbn [lo hi negb] in *.
    enough (E : exists x y, on_boundary r (inject_Z x, inject_Z y) /\ on_boundary s (inject_Z x, inject_Z y)) by (destruct E as [x [y E]]; eexists; exact E).
    assert (H1 : Z.max (xl r) (xl s) <= Z.min (xh r) (xh s)) by lia. assert (H2 : Z.max (yl r) (yl s) <= Z.min (yh r) (yh s)) by lia.
    assert (K' : xl s <= xl r \/ xh r <= xh s \/ yl s <= yl r \/ yh r <= yh s) by lia.
    assert (L' : xl r <= xl s \/ xh s <= xh r \/ yl r <= yl s \/ yh s <= yh r) by lia. clear H K L.
    destruct K' as [K|[K|[K|K]]]; destruct L' as [L|[L|[L|L]]].
    all: first
      [ exists (Z.max (xl r) (xl s)), (Z.max (yl r) (yl s)); rewrite !boundary_pt; lia
      | exists (Z.max (xl r) (xl s)), (Z.min (yh r) (yh s)); rewrite !boundary_pt; lia
      | exists (Z.min (xh r) (xh s)), (Z.max (yl r) (yl s)); rewrite !boundary_pt; lia
      | exists (Z.min (xh r) (xh s)), (Z.min (yh r) (yh s)); rewrite !boundary_pt; lia
      | destruct (Z.leb_spec (yl r) (yl s));
        [ exists (Z.max (xl r) (xl s)), (Z.max (yl r) (yl s)); rewrite !boundary_pt; lia
        | exists (Z.min (xh r) (xh s)), (Z.max (yl r) (yl s)); rewrite !boundary_pt; lia ]
      | destruct (Z.leb_spec (yl r) (yl s));
        [ exists (Z.min (xh r) (xh s)), (Z.max (yl r) (yl s)); rewrite !boundary_pt; lia
        | exists (Z.max (xl r) (xl s)), (Z.max (yl r) (yl s)); rewrite !boundary_pt; lia ]
      | destruct (Z.leb_spec (xl r) (xl s));
        [ exists (Z.max (xl r) (xl s)), (Z.max (yl r) (yl s)); rewrite !boundary_pt; lia
        | exists (Z.max (xl r) (xl s)), (Z.min (yh r) (yh s)); rewrite !boundary_pt; lia ]
      | destruct (Z.leb_spec (xl r) (xl s));
        [ exists (Z.max (xl r) (xl s)), (Z.min (yh r) (yh s)); rewrite !boundary_pt; lia
        | exists (Z.max (xl r) (xl s)), (Z.max (yl r) (yl s)); rewrite !boundary_pt; lia ]
      | idtac ].
  - intros [q [[C D] [E F]]]. cbn [negb]. split; [split|].
    + apply r_intersects_touch; [assumption|assumption|]. exists q. split; assumption.
    + destruct (r_contains r s false) eqn:G; [|reflexivity]. exfalso. rewrite r_contains_spec in G by assumption. apply D, G, E.
    + destruct (r_contains s r false) eqn:G; [|reflexivity]. exfalso. rewrite r_contains_spec in G by assumption. apply F, G, C.
Qed.

Lemma on_boundary_iff r q : on_boundary r q <->
  in_rectq true r q /\ ((fst q == inject_Z (xl r))%Q \/ (fst q == inject_Z (xh r))%Q \/ (snd q == inject_Z (yl r))%Q \/ (snd q == inject_Z (yh r))%Q).
Proof.
  unfold on_boundary. split; intros [A B]; (split; [exact A|]); unfold in_rectq, in_ivl, horizontal, vertical in *; cbn [lo hi] in *.
  - destruct A as [[A1 A2] [A3 A4]].
    destruct (Qlt_le_dec (inject_Z (xl r)) (fst q)) as [E1|E1]; [|left; lra].
    destruct (Qlt_le_dec (fst q) (inject_Z (xh r))) as [E2|E2]; [|right; left; lra].
    destruct (Qlt_le_dec (inject_Z (yl r)) (snd q)) as [E3|E3]; [|right; right; left; lra].
    destruct (Qlt_le_dec (snd q) (inject_Z (yh r))) as [E4|E4]; [|right; right; right; lra].
    exfalso. apply B. auto.
  - intros [[C D] [E F]]. destruct B as [B|[B|[B|B]]]; lra.
Qed.
Lemma r_boundaries_open r s : pos_area r -> pos_area s ->
  (r_boundaries_intersect r s false = true <->
   (exists q, on_boundary r q /\ in_rectq false s q) /\ (exists q, on_boundary s q /\ in_rectq false r q)).
Proof.
  assert (W : forall r s, pos_area r -> pos_area s -> r_intersects r s false = true -> r_contains r s true = false -> exists q, on_boundary r q /\ in_rectq false s q).
  { clear r s. intros r s A B H K. pose proof H as H0. apply r_intersects_open in H0; [|assumption|assumption].
    destruct H0 as [[x y] [[C1 C2] [D1 D2]]]. unfold in_ivl, horizontal, vertical in C1, C2, D1, D2; cbn [lo hi fst snd] in C1, C2, D1, D2.
    unfold pos_area, r_intersects, r_contains, intersects_i, contains_i, contains_v, horizontal, vertical in *; cbn [lo hi] in *.
    assert (G : xl s < xl r \/ xh r < xh s \/ yl s < yl r \/ yh r < yh s) by lia.
    assert (P : xl s < xh r /\ xl r < xh s /\ yl s < yh r /\ yl r < yh s /\ xl r < xh r /\ yl r < yh r) by lia. clear H K A B.
    destruct P as [P1 [P2 [P3 [P4 [P5 P6]]]]]. rewrite Zlt_Qlt in P1, P2, P3, P4, P5, P6. rewrite !Zlt_Qlt in G.
    destruct G as [G|[G|[G|G]]].
    - exists (inject_Z (xl r), y). rewrite on_boundary_iff. unfold in_rectq, in_ivl, horizontal, vertical; cbn [lo hi fst snd]. split; [split; [lra|left; lra]|lra].
    - exists (inject_Z (xh r), y). rewrite on_boundary_iff. unfold in_rectq, in_ivl, horizontal, vertical; cbn [lo hi fst snd]. split; [split; [lra|right; left; lra]|lra].
    - exists (x, inject_Z (yl r)). rewrite on_boundary_iff. unfold in_rectq, in_ivl, horizontal, vertical; cbn [lo hi fst snd]. split; [split; [lra|right; right; left; lra]|lra].
    - exists (x, inject_Z (yh r)). rewrite on_boundary_iff. unfold in_rectq, in_ivl, horizontal, vertical; cbn [lo hi fst snd]. split; [split; [lra|right; right; right; lra]|lra]. }
  assert (V : forall r s, pos_area r -> pos_area s -> (exists q, on_boundary r q /\ in_rectq false s q) -> r_intersects r s false = true /\ r_contains r s true = false).
  { clear r s W. intros r s A B [q [C D]]. rewrite on_boundary_iff in C. destruct C as [[C1 C2] C3].
    destruct D as [D1 D2]. unfold pos_area in *. unfold in_ivl, horizontal, vertical in C1, C2, D1, D2; cbn [lo hi fst snd] in C1, C2, D1, D2.
    assert (E1 : (inject_Z (xl r) < inject_Z (xh s))%Q) by lra. assert (E2 : (inject_Z (xl s) < inject_Z (xh r))%Q) by lra.
    assert (E3 : (inject_Z (yl r) < inject_Z (yh s))%Q) by lra. assert (E4 : (inject_Z (yl s) < inject_Z (yh r))%Q) by lra.
    rewrite <- Zlt_Qlt in E1, E2, E3, E4.
    assert (G : (inject_Z (xl s) < inject_Z (xl r))%Q \/ (inject_Z (xh r) < inject_Z (xh s))%Q \/ (inject_Z (yl s) < inject_Z (yl r))%Q \/ (inject_Z (yh r) < inject_Z (yh s))%Q).
    { destruct C3 as [C|[C|[C|C]]]; [left|right; left|right; right; left|right; right; right]; lra. }
    rewrite <- !Zlt_Qlt in G.
    unfold r_intersects, r_contains, intersects_i, contains_i, contains_v, horizontal, vertical; cbn [lo hi]. lia. }
  intros A B. unfold r_boundaries_intersect. rewrite !andb_true_iff, !negb_true_iff. cbn [negb]. split.
  - intros [[H K] L]. split; [apply W; assumption|]. rewrite r_intersects_sym in H. apply W; assumption.
  - intros [H K]. apply V in H as [H1 H2]; [|assumption|assumption]. apply V in K as [K1 K2]; auto.
Qed.

Lemma r_abuts_spec r s : pos_area r -> pos_area s ->
  (r_abuts r s = true <->
   (exists q, in_rectq true r q /\ in_rectq true s q) /\ ~ (exists q, in_rectq false r q /\ in_rectq false s q)).
Proof.
  intros A B. rewrite <- r_intersects_touch by (unfold rect_ok, pos_area in *; lia). rewrite <- r_intersects_open by assumption.
  unfold r_abuts, r_abuts_o, abuts_i, abuts_dir_i, r_intersects, intersects_i, r_get, perp, pos_area, horizontal, vertical in *; cbn [lo hi] in *. lia.
Qed.
(* abutting towards one side *)
Lemma r_abuts_dir_spec r s o high : pos_area r -> pos_area s ->
  (r_abuts_dir r s o high = true <->
   (exists q, in_rectq true r q /\ in_rectq true s q) /\
   if high then hi (r_get r o) = lo (r_get s o) else hi (r_get s o) = lo (r_get r o)).
Proof.
  intros A B. rewrite <- r_intersects_touch by (unfold rect_ok, pos_area in *; lia).
  unfold r_abuts_dir, abuts_dir_i, r_intersects, intersects_i, pos_area in *.
  destruct o, high; unfold r_get, perp, horizontal, vertical in *; cbn [lo hi] in *; lia.
Qed.
Lemma r_abuts_o_spec r s o : r_abuts_o r s o = r_abuts_dir r s o true || r_abuts_dir r s o false.
Proof. unfold r_abuts_o, r_abuts_dir, abuts_i. destruct (abuts_dir_i (r_get r o) (r_get s o) true), (abuts_dir_i (r_get r o) (r_get s o) false), (intersects_i (r_get r (perp o)) (r_get s (perp o)) true); reflexivity. Qed.

(* ---------- intersect ---------- *)
Lemma intersect_i_true i j : fst (intersect_i i j true) = true -> snd (intersect_i i j true) = mk_ivl (Z.max (lo i) (lo j)) (Z.min (hi i) (hi j)).
Proof. unfold intersect_i. destruct (Z.max (lo i) (lo j) <=? Z.min (hi i) (hi j)); cbn [fst snd]; [reflexivity|discriminate]. Qed.
Definition clip (r s : rect) : rect := mk_rect (Z.max (xl r) (xl s)) (Z.min (xh r) (xh s)) (Z.max (yl r) (yl s)) (Z.min (yh r) (yh s)).
Lemma clip_points r s touch q : in_rectq touch (clip r s) q <-> in_rectq touch r q /\ in_rectq touch s q.
Proof.
  unfold in_rectq, in_ivl, clip, horizontal, vertical; cbn [lo hi xl xh yl yh].
  pose proof (Z.max_spec (xl r) (xl s)) as M1. pose proof (Z.min_spec (xh r) (xh s)) as M2.
  pose proof (Z.max_spec (yl r) (yl s)) as M3. pose proof (Z.min_spec (yh r) (yh s)) as M4.
  assert (E1 : forall (x : Q), (inject_Z (Z.max (xl r) (xl s)) <= x <-> inject_Z (xl r) <= x /\ inject_Z (xl s) <= x)%Q /\ (inject_Z (Z.max (xl r) (xl s)) < x <-> inject_Z (xl r) < x /\ inject_Z (xl s) < x)%Q).
  { intros x. destruct M1 as [[L ->]|[L ->]]; rewrite ?Zlt_Qlt, ?Zle_Qle in L; split; split; intros; try split; lra. }
  assert (E2 : forall (x : Q), (x <= inject_Z (Z.min (xh r) (xh s)) <-> x <= inject_Z (xh r) /\ x <= inject_Z (xh s))%Q /\ (x < inject_Z (Z.min (xh r) (xh s)) <-> x < inject_Z (xh r) /\ x < inject_Z (xh s))%Q).
  { intros x. destruct M2 as [[L ->]|[L ->]]; rewrite ?Zlt_Qlt, ?Zle_Qle in L; split; split; intros; try split; lra. }
  assert (E3 : forall (x : Q), (inject_Z (Z.max (yl r) (yl s)) <= x <-> inject_Z (yl r) <= x /\ inject_Z (yl s) <= x)%Q /\ (inject_Z (Z.max (yl r) (yl s)) < x <-> inject_Z (yl r) < x /\ inject_Z (yl s) < x)%Q).
  { intros x. destruct M3 as [[L ->]|[L ->]]; rewrite ?Zlt_Qlt, ?Zle_Qle in L; split; split; intros; try split; lra. }
  assert (E4 : forall (x : Q), (x <= inject_Z (Z.min (yh r) (yh s)) <-> x <= inject_Z (yh r) /\ x <= inject_Z (yh s))%Q /\ (x < inject_Z (Z.min (yh r) (yh s)) <-> x < inject_Z (yh r) /\ x < inject_Z (yh s))%Q).
  { intros x. destruct M4 as [[L ->]|[L ->]]; rewrite ?Zlt_Qlt, ?Zle_Qle in L; split; split; intros; try split; lra. }
  specialize (E1 (fst q)). specialize (E2 (fst q)). specialize (E3 (snd q)). specialize (E4 (snd q)). destruct touch; tauto.
Qed.
Lemma r_intersect_eq r s : rect_ok r -> rect_ok s -> r_intersect r s true = if r_intersects r s true then (true, clip r s) else (false, r).
Proof.
  intros A B. unfold r_intersect. destruct (r_intersects r s true) eqn:E; [|reflexivity].
  unfold r_intersects, intersects_i, rect_ok in *.
  unfold r_intersect_i, intersect_i, r_get, r_set. unfold horizontal, vertical, clip in *; cbn [lo hi xl xh yl yh] in *.
  replace (Z.max (xl r) (xl s) <=? Z.min (xh r) (xh s)) with true by lia. cbn [snd lo hi xl xh yl yh].
  replace (Z.max (yl r) (yl s) <=? Z.min (yh r) (yh s)) with true by lia. reflexivity.
Qed.
(* consider_touch = false when the interiors meet or the closed rectangles are
   disjoint *)
Lemma r_intersect_inner r s touch : pos_area r -> pos_area s -> r_intersects r s false = true ->
  r_intersect r s touch = (true, clip r s).
Proof.
  intros A B H. unfold r_intersect. replace (r_intersects r s true) with true by (unfold r_intersects, intersects_i in *; lia).
  unfold pos_area in *. unfold r_intersects, intersects_i, r_intersect_i, intersect_i, r_get, r_set in *. unfold horizontal, vertical, clip in *; cbn [lo hi xl xh yl yh] in *.
  replace (if touch then Z.max (xl r) (xl s) <=? Z.min (xh r) (xh s) else Z.max (xl r) (xl s) <? Z.min (xh r) (xh s)) with true by (destruct touch; lia).
  cbn [snd lo hi xl xh yl yh].
  replace (if touch then Z.max (yl r) (yl s) <=? Z.min (yh r) (yh s) else Z.max (yl r) (yl s) <? Z.min (yh r) (yh s)) with true by (destruct touch; lia).
  reflexivity.
Qed.
Lemma r_intersect_disjoint r s touch : r_intersects r s true = false -> r_intersect r s touch = (false, r).
Proof. unfold r_intersect. intros ->. reflexivity. Qed.
Lemma r_intersect_touch_spec r s : rect_ok r -> rect_ok s ->
  (fst (r_intersect r s true) = true <-> exists q, in_rectq true r q /\ in_rectq true s q) /\
  (fst (r_intersect r s true) = true ->
     forall touch q, in_rectq touch (snd (r_intersect r s true)) q <-> in_rectq touch r q /\ in_rectq touch s q) /\
  (fst (r_intersect r s true) = false -> snd (r_intersect r s true) = r).
Proof.
  intros A B. rewrite <- r_intersects_touch by assumption. rewrite r_intersect_eq by assumption.
  destruct (r_intersects r s true); cbn [fst snd].
  - split; [tauto|]. split; [intros _; apply clip_points|discriminate].
  - split; [tauto|]. split; [discriminate|reflexivity].
Qed.
(* consider_touch = false: two rectangles that share only a part of an edge *)
Lemma r_intersect_open_refuted : exists r s,
  pos_area r /\ pos_area s /\ r_intersects r s false = false /\
  fst (r_intersect r s false) = true /\ snd (r_intersect r s false) <> r /\
  ~ exists q, in_rectq false r q /\ in_rectq false s q.
Proof.
  exists (mk_rect 0 10 0 10), (mk_rect 10 20 3 5).
  assert (A : pos_area (mk_rect 0 10 0 10)) by (unfold pos_area; cbn [xl xh yl yh]; lia).
  assert (B : pos_area (mk_rect 10 20 3 5)) by (unfold pos_area; cbn [xl xh yl yh]; lia).
  split; [exact A|]. split; [exact B|].
  rewrite <- r_intersects_open by assumption. vm_compute. repeat split; discriminate.
Qed.

(* ---------- encompass, join_with, construction ---------- *)
Lemma r_encompass_i_eq r i o : ivl_ok (r_get r o) -> ivl_ok i ->
  r_encompass_i r i o = (negb (contains_i (r_get r o) i true), r_set r o (snd (encompass_i (r_get r o) i))).
Proof.
  intros A B. unfold r_encompass_i. destruct (encompass_i (r_get r o) i) as [b k] eqn:E.
  pose proof (encompass_i_ret _ _ A B) as [_ R]. assert (F : b = negb (contains_i (r_get r o) i true)) by (unfold encompass_i in E; congruence).
  rewrite E in R. cbn [fst snd] in *. rewrite <- F. destruct b; [reflexivity|]. rewrite R by reflexivity.
  f_equal. destruct o, r; reflexivity.
Qed.
Definition r_hull (r s : rect) : rect := mk_rect (Z.min (xl r) (xl s)) (Z.max (xh r) (xh s)) (Z.min (yl r) (yl s)) (Z.max (yh r) (yh s)).
Lemma r_encompass_eq r s : rect_ok r -> rect_ok s -> r_encompass r s = (negb (r_contains r s true), r_hull r s).
Proof.
  intros A B. rewrite rect_ok_ivls in A; destruct A as [A1 A2]. rewrite rect_ok_ivls in B; destruct B as [B1 B2]. unfold r_encompass.
  rewrite r_encompass_i_eq by assumption. rewrite r_encompass_i_eq; [|cbn [r_get]; rewrite vertical_set_h; assumption|assumption].
  cbn [r_get]. rewrite vertical_set_h. unfold r_contains. rewrite negb_andb. f_equal.
Qed.
Lemma r_hull_spec r s : rect_ok r -> rect_ok s -> rect_hull r s (r_hull r s).
Proof.
  intros A B. unfold rect_hull, in_rectq, in_ivl, r_hull, horizontal, vertical; cbn [lo hi xl xh yl yh]. split.
  - intros q H.
    assert (L : Z.min (xl r) (xl s) <= xl r /\ Z.min (xl r) (xl s) <= xl s /\ xh r <= Z.max (xh r) (xh s) /\ xh s <= Z.max (xh r) (xh s)) by lia.
    assert (M : Z.min (yl r) (yl s) <= yl r /\ Z.min (yl r) (yl s) <= yl s /\ yh r <= Z.max (yh r) (yh s) /\ yh s <= Z.max (yh r) (yh s)) by lia.
    rewrite !Zle_Qle in L, M. lra.
  - intros h' H q [[C D] [E F]]. unfold rect_ok in *.
    pose proof (H (inject_Z (xl r), inject_Z (yl r))) as H1. pose proof (H (inject_Z (xh r), inject_Z (yh r))) as H2.
    pose proof (H (inject_Z (xl s), inject_Z (yl s))) as H3. pose proof (H (inject_Z (xh s), inject_Z (yh s))) as H4. cbn [fst snd] in *.
    rewrite !Zle_Q in *.
    destruct H1 as [H1 H1']; [lia|]. destruct H2 as [H2 H2']; [lia|]. destruct H3 as [H3 H3']; [lia|]. destruct H4 as [H4 H4']; [lia|].
    assert (L : xl h' <= Z.min (xl r) (xl s) /\ Z.max (xh r) (xh s) <= xh h' /\ yl h' <= Z.min (yl r) (yl s) /\ Z.max (yh r) (yh s) <= yh h') by lia.
    rewrite !Zle_Qle in L. lra.
Qed.
Lemma r_encompass_spec r s : rect_ok r -> rect_ok s ->
  rect_hull r s (snd (r_encompass r s)) /\
  (fst (r_encompass r s) = true <-> ~ forall q, in_rectq true s q -> in_rectq true r q) /\
  (fst (r_encompass r s) = false -> snd (r_encompass r s) = r).
Proof.
  intros A B. rewrite r_encompass_eq by assumption. cbn [fst snd]. split; [apply r_hull_spec; assumption|].
  rewrite <- r_contains_spec by assumption. split; [destruct (r_contains r s true); cbn [negb]; split; congruence|].
  unfold r_contains, contains_i, contains_v, r_hull, horizontal, vertical; cbn [lo hi]. destruct r as [a b c d]; cbn [xl xh yl yh]. intros H. f_equal; lia.
Qed.
Lemma r_encompass_pt_as r p : rect_ok r -> r_encompass_pt r p = r_encompass r (mk_rect (px p) (px p) (py p) (py p)).
Proof.
  intros A. rewrite r_encompass_eq; [|exact A|unfold rect_ok; cbn [xl xh yl yh]; lia].
  unfold r_encompass_pt, encompass_v, r_contains, contains_i, contains_v, r_hull, horizontal, vertical; cbn [lo hi xl xh yl yh].
  destruct ((px p <=? xh r) && (px p >=? xl r)) eqn:E1; destruct ((py p <=? yh r) && (py p >=? yl r)) eqn:E2; cbn [negb orb andb]; unfold r_of_ivls; cbn [lo hi]; try reflexivity.
  destruct r as [a b c d]; cbn [xl xh yl yh] in *. f_equal. f_equal; lia.
Qed.
Lemma r_join_spec r s : rect_ok r -> rect_ok s ->
  (fst (r_join_with r s) = true -> forall q, in_rectq true (snd (r_join_with r s)) q <-> in_rectq true r q \/ in_rectq true s q) /\
  (fst (r_join_with r s) = false -> snd (r_join_with r s) = r).
Proof.
  intros A B. rewrite rect_ok_ivls in A; destruct A as [A1 A2]. rewrite rect_ok_ivls in B; destruct B as [B1 B2]. unfold r_join_with.
  pose proof (join_spec _ _ A1 B1) as [_ [Jh _]]. pose proof (join_spec _ _ A2 B2) as [_ [Jv _]].
  destruct (join_with_i (vertical r) (vertical s)) as [bv v]. destruct (join_with_i (horizontal r) (horizontal s)) as [bh h]. cbn [fst snd] in *.
  destruct (ivl_equiv (horizontal r) (horizontal s) && bv) eqn:E1; [|destruct (ivl_equiv (vertical r) (vertical s) && bh) eqn:E2]; cbn [fst snd].
  - split; [|discriminate]. intros _ q. apply andb_true_iff in E1 as [E ->]. specialize (Jv eq_refl (snd q)).
    assert (F : horizontal s = horizontal r) by (unfold ivl_equiv in E; destruct (horizontal r) as [a b], (horizontal s) as [c d]; cbn [lo hi] in E; f_equal; lia).
    unfold in_rectq. rewrite horizontal_set_v, vertical_set_v, F. tauto.
  - split; [|discriminate]. intros _ q. apply andb_true_iff in E2 as [E ->]. specialize (Jh eq_refl (fst q)).
    assert (F : vertical s = vertical r) by (unfold ivl_equiv in E; destruct (vertical r) as [a b], (vertical s) as [c d]; cbn [lo hi] in E; f_equal; lia).
    unfold in_rectq. rewrite horizontal_set_h, vertical_set_h, F. tauto.
  - split; [discriminate|reflexivity].
Qed.
(* when it succeeds: two abutting rectangles with a common side *)
Lemma r_join_when r s : fst (r_join_with r s) = true <->
  (horizontal r = horizontal s /\ abuts_i (vertical r) (vertical s) = true) \/
  (vertical r = vertical s /\ abuts_i (horizontal r) (horizontal s) = true).
Proof.
  assert (Q : forall i j, ivl_equiv i j = true <-> i = j).
  { intros i j. unfold ivl_equiv. destruct i as [a b], j as [c d]; cbn [lo hi]. split; [intros H; f_equal; lia|intros H; injection H as -> ->; lia]. }
  unfold r_join_with, join_with_i. rewrite <- !Q.
  destruct (abuts_i (vertical r) (vertical s)), (abuts_i (horizontal r) (horizontal s)), (ivl_equiv (horizontal r) (horizontal s)), (ivl_equiv (vertical r) (vertical s)); cbn [andb fst]; split; intros H; auto; try tauto; destruct H as [[H K]|[H K]]; discriminate.
Qed.
Lemma r_set_points_spec p q : rect_ok (r_set_points p q) /\ r_set_points p q = r_set_points q p /\
  in_rectq true (r_set_points p q) (qpt p) /\ in_rectq true (r_set_points p q) (qpt q) /\
  forall h, in_rectq true h (qpt p) -> in_rectq true h (qpt q) -> forall z, in_rectq true (r_set_points p q) z -> in_rectq true h z.
Proof.
  unfold r_set_points, rect_ok, r_contains_pt, contains_v, in_rectq, in_ivl, r_of_ivls, ivl_make, horizontal, vertical, qpt; cbn [xl xh yl yh lo hi fst snd].
  destruct (px p >? px q) eqn:E1; destruct (px q >? px p) eqn:E2; destruct (py p >? py q) eqn:E3; destruct (py q >? py p) eqn:E4; cbn [lo hi]; try lia.
  all: split; [lia|]. all: split; [f_equal; lia|].
  all: rewrite !Zle_Q. all: split; [lia|]. all: split; [lia|]. all: intros h H K z L; lra.
Qed.
