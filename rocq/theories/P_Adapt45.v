(* Operations of sets of 45-degree polygons that treat rectilinear sets in another way,
   comparison, empty() and extents. C80, C81 *)
From Coq Require Import Reals Lra Sorting.Sorted Permutation.
From Verif Require Import Base Units Outcome Scan90Spec Poly90Spec Poly90Model BoolOpModel VertexLemmas BoolOpProofs GeoSpec PolySpec Set90Spec Set90Model Set90Lemmas Set90Proofs ArbSpec ArbSums ArbOrder Ins45Spec Ins45Model Ins45Proofs Ins45Cor Scan45Model Scan45Base Scan45Step Bool45Spec Bool45Model Bool45Proofs Bool45Insert Adapt45Spec Adapt45Model Adapt45Proofs Adapt45Eq P_Bool45.
From Coq Require Import Lra.
Local Open Scope Z_scope.

(* ---------- C80 ---------- *)
(* Two sets, each marked as rectilinear or not. The boolean operators give exactly what the
   operation says everywhere in the plane, whichever way they compute, in a set that can be
   used again: a boundary, in order, with the right mark. Nothing is undefined, and only the
   sweep for diagonal edges can throw. *)
Theorem C80_boolean : forall op s t ss st,
  boundary45 (s_data s) -> (s_manhattan s = true -> rectilinear45 (s_data s)) ->
  boundary45 (s_data t) -> (s_manhattan t = true -> rectilinear45 (s_data t)) ->
  int45 (s_data s) -> int45 (s_data t) ->
  Permutation (s_data s) ss -> Permutation (s_data t) st -> in_order ss -> in_order st ->
  match op_set45 op s t ss st with
  | Fine u =>
      (forall x y, depth45 (s_data u) x y = if op_covers op (covered45 (s_data s) x y) (covered45 (s_data t) x y) then 1 else 0) /\
      boundary45 (s_data u) /\ in_order (s_data u) /\ (s_manhattan u = true <-> rectilinear45 (s_data u))
  | Throw => s_manhattan s && s_manhattan t = false
  | Bad => False
  end.
Proof.
  intros op s t ss st Bs Rs Bt Rt Is It Ps Pt Os Ot. unfold op_set45. destruct (s_manhattan s && s_manhattan t) eqn:M.
  - apply andb_true_iff in M as [M1 M2]. destruct (rect_boolean op s t (conj Bs Rs) (conj Bt Rt) M1 M2 Is It) as [out [-> [_ G]]]. exact G.
  - pose proof (C78_boolean op _ _ _ _ Bs Bt Ps Pt Os Ot) as H. destruct (bool45 (op_code op) ss st) as [[r f]| |]; cbn [rbind fst snd s_data s_manhattan]; [|reflexivity|exact H].
    destruct H as [H1 [H2 [H3 H4]]]. split; [exact H1|]. split; [exact H2|]. split; [|exact H4]. apply strict_in_order, H3.
Qed.
Print Assumptions C80_boolean.
(* The same for clean(), self_intersect() and self_xor(); the rectilinear self_xor() only
   agrees where no place is covered a negative number of times. *)
Theorem C80_self : forall op s ss,
  boundary45 (s_data s) -> (s_manhattan s = true -> rectilinear45 (s_data s)) -> int45 (s_data s) ->
  Permutation (s_data s) ss -> in_order ss ->
  (op = SelfXor45 -> s_manhattan s = true -> forall x y, 0 <= depth45 (s_data s) x y) ->
  match self_set45 op s ss with
  | Fine u =>
      (forall x y, depth45 (s_data u) x y = if self_covers op (depth45 (s_data s) x y) then 1 else 0) /\
      boundary45 (s_data u) /\ in_order (s_data u) /\ (s_manhattan u = true <-> rectilinear45 (s_data u))
  | Throw => s_manhattan s = false
  | Bad => False
  end.
Proof.
  intros op s ss B R I P O N. unfold self_set45. destruct (s_manhattan s) eqn:M.
  - destruct (rect_self op s (conj B (fun _ => R eq_refl)) M I) as [t [-> [_ [G1 G2]]]]. split; [|exact G2]. intros x y. rewrite G1. destruct op; cbn [self_covers]; [rewrite andb_diag; reflexivity| |].
    + replace ((0 <? depth45 (s_data s) x y) && (1 <? depth45 (s_data s) x y)) with (1 <? depth45 (s_data s) x y) by lia. reflexivity.
    + specialize (N eq_refl eq_refl x y). destruct (Z.ltb_spec 0 (depth45 (s_data s) x y)) as [L|L]; [reflexivity|]. replace (depth45 (s_data s) x y) with 0 by lia. reflexivity.
  - pose proof (C78_self op _ _ B P O) as H. destruct (unary45 (self_code op) ss) as [[r f]| |]; cbn [rbind fst snd s_data s_manhattan]; [|reflexivity|exact H].
    destruct H as [H1 [H2 [H3 H4]]]. split; [exact H1|]. split; [exact H2|]. split; [|exact H4]. apply strict_in_order, H3.
Qed.
Print Assumptions C80_self.
Lemma clean_set s ss : bvalid s -> int45 (s_data s) -> Permutation (s_data s) ss -> in_order ss ->
  match self_set45 SelfOr45 s ss with Fine u => good_result u (fun x y => if covered45 (s_data s) x y then 1 else 0) | Throw => s_manhattan s = false | Bad => False end.
Proof. intros [B R] I P O. apply (C80_self SelfOr45 s ss B R I P O). discriminate. Qed.

(* operator== never says that sets are equal that cover different places. *)
Theorem C80_equal_sound : forall s t ss st,
  boundary45 (s_data s) -> (s_manhattan s = true -> rectilinear45 (s_data s)) ->
  boundary45 (s_data t) -> (s_manhattan t = true -> rectilinear45 (s_data t)) ->
  int45 (s_data s) -> int45 (s_data t) ->
  Permutation (s_data s) ss -> Permutation (s_data t) st -> in_order ss -> in_order st ->
  eq_set45 s t ss st = Fine true -> forall x y, covered45 (s_data s) x y = covered45 (s_data t) x y.
Proof.
  intros s t ss st Bs Rs Bt Rt Is It Ps Pt Os Ot H x y. unfold eq_set45 in H.
  pose proof (clean_set s ss (conj Bs Rs) Is Ps Os) as A. pose proof (clean_set t st (conj Bt Rt) It Pt Ot) as B.
  destruct (self_set45 SelfOr45 s ss) as [a| |]; cbn [rbind] in H; try discriminate. destruct (self_set45 SelfOr45 t st) as [b| |]; cbn [rbind] in H; try discriminate.
  assert (E : data_eqb (s_data a) (s_data b) = true) by congruence. apply data_eqb_iff in E. destruct A as [A _], B as [B _]. specialize (A x y). specialize (B x y). rewrite E, B in A. destruct (covered45 (s_data s) x y), (covered45 (s_data t) x y); congruence.
Qed.
Print Assumptions C80_equal_sound.
(* For two rectilinear sets it is exact and never throws. *)
Theorem C80_equal_rectilinear : forall s t ss st,
  boundary45 (s_data s) -> rectilinear45 (s_data s) -> boundary45 (s_data t) -> rectilinear45 (s_data t) ->
  s_manhattan s = true -> s_manhattan t = true -> int45 (s_data s) -> int45 (s_data t) ->
  exists e, eq_set45 s t ss st = Fine e /\ (e = true <-> forall x y, covered45 (s_data s) x y = covered45 (s_data t) x y).
Proof.
  intros s t ss st Bs Rs Bt Rt Ms Mt Is It. unfold eq_set45, self_set45. rewrite Ms, Mt.
  destruct (rect_self SelfOr45 s (conj Bs (fun _ => Rs)) Ms Is) as [a [-> [Ca Ga]]]. destruct (rect_self SelfOr45 t (conj Bt (fun _ => Rt)) Mt It) as [b [-> [Cb Gb]]]. cbn [rbind]. eexists. split; [reflexivity|]. rewrite data_eqb_iff. destruct Ga as [Ga _], Gb as [Gb _]. cbn [self_covers] in Ga, Gb. split.
  - intros E x y. specialize (Ga x y). specialize (Gb x y). rewrite E, Gb in Ga. unfold covered45. rewrite !andb_diag in Ga. destruct (0 <? depth45 (s_data s) x y), (0 <? depth45 (s_data t) x y); congruence.
  - intros H. f_equal. f_equal. apply canonical_unique; [apply Ca; reflexivity|apply Cb; reflexivity|]. intros X Y.
    destruct (from90_rect (ps_data a)) as [A1 A2]. destruct (from90_rect (ps_data b)) as [B1 B2].
    pose proof (Ga (cell_mid X) (cell_mid Y)) as Ka. pose proof (Gb (cell_mid X) (cell_mid Y)) as Kb.
    assert (Q : forall d, Forall balanced (s_data (from90 d)) -> rectilinear45 (s_data (from90 d)) -> cnt d X Y = depth45 (s_data (from90 d)) (cell_mid X) (cell_mid Y)).
    { intros d D1 D2. rewrite <- from90_cnt. apply (manhattan_cnt (from90 d)); [split; [exact D1|intros _; exact D2]|reflexivity]. }
    rewrite (Q _ A1 A2), (Q _ B1 B2), Ka, Kb, !andb_diag. specialize (H (cell_mid X) (cell_mid Y)). unfold covered45 in H. rewrite H. reflexivity.
Qed.
Print Assumptions C80_equal_rectilinear.

(* two squares that touch in a corner; the same, with a diamond that is inserted and taken
   away again *)
Definition diamond_set : set45 := insert_vseq45 true false [mk_pt 20 (-4); mk_pt 24 0; mk_pt 20 4; mk_pt 16 0] empty45.
Definition squares : set45 := insert_rect45 false (mk_rect 2 4 2 4) (insert_rect45 false (mk_rect 0 2 0 2) empty45).
Definition roundabout (s : set45) : set45 := insert_set45 true diamond_set (insert_set45 false diamond_set s).
Lemma diamond_set_bvalid : bvalid diamond_set.
Proof. split; [apply (diamond_boundary 20)|]. intros M. exfalso. revert M. vm_compute. discriminate. Qed.
Lemma squares_bvalid : bvalid squares.
Proof. apply rect45_bvalid; [unfold rect_ok; cbn [xl xh yl yh]; lia|]. apply rect45_bvalid; [unfold rect_ok; cbn [xl xh yl yh]; lia|]. apply bvalid_empty. Qed.
Lemma roundabout_bvalid s : bvalid s -> bvalid (roundabout s).
Proof. intros S. apply set45_bvalid; [apply diamond_set_bvalid|]. apply set45_bvalid; [apply diamond_set_bvalid|exact S]. Qed.
Lemma roundabout_depth s x y : depth45 (s_data (roundabout s)) x y = depth45 (s_data s) x y.
Proof. unfold roundabout. pose proof (set45_depth true diamond_set (insert_set45 false diamond_set s) x y) as A. pose proof (set45_depth false diamond_set s x y) as B. unfold sdepth, hole_sign in *. lia. Qed.
Ltac ints := unfold int45; match goal with |- Forall _ ?l => let t := eval vm_compute in l in change l with t end; repeat (apply Forall_cons || apply Forall_nil); cbn [v_pt px py]; unfold is_int, INT_MIN, INT_MAX; lia.
(* operator== is not complete: the documentation calls the representation canonical, but the
   two ways to compute write down a corner where two squares touch differently, as two
   vertices or as one. *)
Theorem C80_equal_refuted : exists s t ss st,
  boundary45 (s_data s) /\ (s_manhattan s = true -> rectilinear45 (s_data s)) /\ boundary45 (s_data t) /\ (s_manhattan t = true -> rectilinear45 (s_data t)) /\
  int45 (s_data s) /\ int45 (s_data t) /\ Permutation (s_data s) ss /\ Permutation (s_data t) st /\ in_order ss /\ in_order st /\
  (forall x y, depth45 (s_data s) x y = depth45 (s_data t) x y) /\ eq_set45 s t ss st = Fine false.
Proof.
  exists squares, (roundabout squares), (sort_v (s_data squares)), (sort_v (s_data (roundabout squares))).
  pose proof squares_bvalid as [B1 B2]. pose proof (roundabout_bvalid _ squares_bvalid) as [C1 C2]. split; [exact B1|]. split; [exact B2|]. split; [exact C1|]. split; [exact C2|]. split; [ints|]. split; [ints|]. split; [apply sort_perm|]. split; [apply sort_perm|]. split; [apply sort_order|]. split; [apply sort_order|]. split; [intros x y; symmetry; apply roundabout_depth|]. vm_compute. reflexivity.
Qed.
Print Assumptions C80_equal_refuted.
(* self_xor() of a hole that is in no polygon: nothing in a rectilinear set, but in a set
   with a diamond far away the hole becomes covered. *)
Theorem C80_self_xor_refuted : exists s t ss st a b x y,
  boundary45 (s_data s) /\ (s_manhattan s = true -> rectilinear45 (s_data s)) /\ boundary45 (s_data t) /\ (s_manhattan t = true -> rectilinear45 (s_data t)) /\
  int45 (s_data s) /\ int45 (s_data t) /\ Permutation (s_data s) ss /\ Permutation (s_data t) st /\ in_order ss /\ in_order st /\
  depth45 (s_data s) x y = -1 /\ depth45 (s_data t) x y = -1 /\
  self_set45 SelfXor45 s ss = Fine a /\ self_set45 SelfXor45 t st = Fine b /\
  depth45 (s_data a) x y = 0 /\ depth45 (s_data b) x y = 1.
Proof.
  set (s := insert_rect45 true (mk_rect 0 4 0 4) empty45). set (t := insert_set45 false diamond_set s).
  assert (S : bvalid s) by (apply rect45_bvalid; [unfold rect_ok; cbn [xl xh yl yh]; lia|apply bvalid_empty]).
  assert (T : bvalid t) by (apply set45_bvalid; [apply diamond_set_bvalid|exact S]).
  assert (I : int45 (s_data s)) by (unfold s; ints). assert (J : int45 (s_data t)) by (unfold t, s; ints).
  assert (D1 : depth45 (s_data s) 1 1 = -1).
  { pose proof (rect45_depth true (mk_rect 0 4 0 4) empty45 1 1 ltac:(unfold rect_ok; cbn [xl xh yl yh]; lia)) as E. fold s in E. unfold sdepth in E. rewrite E. replace (in_rect_r (mk_rect 0 4 0 4) 1 1) with true; [reflexivity|]. symmetry. unfold in_rect_r. cbn [xl xh yl yh]. rewrite !andb_true_iff, !rleb_iff, !rltb_iff. lra. }
  assert (D2 : depth45 (s_data t) 1 1 = -1).
  { pose proof (set45_depth false diamond_set s 1 1) as E. fold t in E. unfold sdepth in E. rewrite E, D1. assert (Z0 : depth45 (s_data diamond_set) 1 1 = 0).
    { destruct (Z.eq_dec (depth45 (s_data diamond_set) 1 1) 0) as [Q|Q]; [exact Q|]. apply (outside_zero (mk_rect 16 24 (-4) 4)) in Q; [cbn [xl xh yl yh] in Q; lra|apply diamond_set_bvalid|]. match goal with |- Forall _ ?l => let t := eval vm_compute in l in change l with t end. repeat (apply Forall_cons || apply Forall_nil); unfold inside; cbn [v_pt px py xl xh yl yh]; lia. }
    rewrite Z0. reflexivity. }
  destruct (rect_self SelfXor45 s S eq_refl I) as [u [U [_ [G _]]]].
  assert (A : self_set45 SelfXor45 s (sort_v (s_data s)) = Fine (from90 (ps_data u))) by (unfold self_set45; change (s_manhattan s) with true; cbv iota; rewrite U; reflexivity).
  pose proof (C80_self SelfXor45 t (sort_v (s_data t)) (proj1 T) (proj2 T) J (sort_perm _) (sort_order _)) as H.
  assert (F : exists b, self_set45 SelfXor45 t (sort_v (s_data t)) = Fine b) by (eexists; vm_compute; reflexivity). destruct F as [b F]. rewrite F in H.
  destruct H as [H _]; [intros _ M; exfalso; revert M; vm_compute; discriminate|].
  exists s, t, (sort_v (s_data s)), (sort_v (s_data t)), (from90 (ps_data u)), b, 1%R, 1%R. split; [apply S|]. split; [apply S|]. split; [apply T|]. split; [apply T|]. split; [exact I|]. split; [exact J|]. split; [apply sort_perm|]. split; [apply sort_perm|]. split; [apply sort_order|]. split; [apply sort_order|]. split; [exact D1|]. split; [exact D2|]. split; [exact A|]. split; [exact F|]. split; [rewrite G, D1; reflexivity|rewrite H, D2; reflexivity].
Qed.
Print Assumptions C80_self_xor_refuted.
(* The documentation of empty() says that it scans the set, because subtractive regions may
   make it empty. It does not. *)
Theorem C80_empty_refuted : exists s, boundary45 (s_data s) /\ (s_manhattan s = true -> rectilinear45 (s_data s)) /\ (forall x y, covered45 (s_data s) x y = false) /\ empty_set45 s = false.
Proof.
  exists (roundabout empty45). pose proof (roundabout_bvalid _ bvalid_empty) as [A B]. split; [exact A|]. split; [exact B|]. split; [|reflexivity]. intros x y. unfold covered45. rewrite roundabout_depth. reflexivity.
Qed.
Print Assumptions C80_empty_refuted.
Example C80_demo :
  (exists u, op_set45 Not45 squares diamond_set (sort_v (s_data squares)) (sort_v (s_data diamond_set)) = Fine u /\ length (s_data u) = 7%nat /\ s_manhattan u = true) /\
  (exists u, op_set45 Xor45 squares (insert_rect45 false (mk_rect 1 5 1 5) empty45) [] [] = Fine u /\ length (s_data u) = 16%nat) /\
  (exists u, self_set45 SelfAnd45 (insert_rect45 false (mk_rect 1 5 1 5) squares) [] = Fine u /\ length (s_data u) = 8%nat) /\
  eq_set45 squares squares [] [] = Fine true.
Proof. split; [eexists; split; [vm_compute; reflexivity|split; reflexivity]|]. split; [eexists; split; [vm_compute; reflexivity|reflexivity]|]. split; [eexists; split; [vm_compute; reflexivity|reflexivity]|]. vm_compute. reflexivity. Qed.

(* ---------- C81 ---------- *)
(* extents: the rectangle contains everything that is covered, and if there is none nothing is
   covered. *)
Theorem C81_extents_enclose : forall s ss,
  boundary45 (s_data s) -> (s_manhattan s = true -> rectilinear45 (s_data s)) -> int45 (s_data s) ->
  Permutation (s_data s) ss -> in_order ss ->
  match extents_set45 s ss with
  | Fine (Some q) => forall x y, covered45 (s_data s) x y = true -> in_rect_r q x y = true
  | Fine None => forall x y, covered45 (s_data s) x y = false
  | Throw => s_manhattan s = false
  | Bad => False
  end.
Proof.
  intros s ss B R I P O. unfold extents_set45. pose proof (clean_set s ss (conj B R) I P O) as H. destruct (self_set45 SelfOr45 s ss) as [a| |]; cbn [rbind]; [|exact H|exact H]. destruct H as [D [Ba _]].
  rewrite extents_fold. destruct (s_data a) as [|v l] eqn:E.
  - intros x y. specialize (D x y). cbn in D. destruct (covered45 (s_data s) x y); [discriminate|reflexivity].
  - destruct (grow_fold (v :: l) (mk_rect INT_MAX INT_MIN INT_MAX INT_MIN) _ eq_refl) as [_ [F _]]. set (q := fold_left _ _ _) in *. intros x y C. assert (N : depth45 (v :: l) x y <> 0) by (rewrite D, C; lia). destruct (outside_zero q _ x y Ba F N) as [[H1 H2] [H3 H4]]. unfold in_rect_r. rewrite !andb_true_iff, !rleb_iff, !rltb_iff. tauto.
Qed.
Print Assumptions C81_extents_enclose.
Definition all_counted (l : list v45) : Prop := forall v, In v l -> exists r, -1 <= r <= 1 /\ count_at (v_pt v) r l <> 0.
Lemma strict_counted l : strictly_in_order l -> Forall has_counts l -> all_counted l.
Proof.
  intros S F v V. rewrite Forall_forall in F. assert (K : exists r, -1 <= r <= 1 /\ slope_count v r <> 0).
  { destruct (F v V) as [N|[N|N]]; [exists (-1)|exists 0|exists 1]; unfold slope_count; cbn [Z.eqb Pos.eqb]; lia. }
  destruct K as [r [K1 K2]]. exists r. split; [exact K1|]. rewrite strict_count; assumption.
Qed.
Lemma canonical_counted d : canonical d -> all_counted (s_data (from90 d)).
Proof.
  intros C v V. rewrite from90_data in *. apply in_map_iff in V as [w [<- W]]. exists 0. split; [lia|]. pose proof (clean_ptotal_nonzero d w (canonical_clean_ok d C) W) as N.
  replace (count_at (v_pt (vertex_of_90 false Vertical w)) 0 (map (vertex_of_90 false Vertical) d)) with (ptotal d (vx w) (vy w)); [exact N|].
  clear. unfold count_at. induction d as [|u d IH]; [reflexivity|]. cbn [map tot ptotal]. rewrite IH. unfold vertex_of_90, slope_count, pt_eqb. cbn [v_pt v_flat px py Z.eqb Pos.eqb]. reflexivity.
Qed.
Lemma smallest a s : bvalid s -> int45 (s_data s) -> (forall x y, depth45 (s_data a) x y = if covered45 (s_data s) x y then 1 else 0) -> all_counted (s_data a) ->
  match extents_data (s_data a) with
  | Some q => forall q', (forall x y, covered45 (s_data s) x y = true -> in_rect_r q' x y = true) -> xl q' <= xl q /\ xh q <= xh q' /\ yl q' <= yl q /\ yh q <= yh q'
  | None => True
  end.
Proof.
  intros [B _] I D A. rewrite extents_fold. destruct (s_data a) as [|v0 l0] eqn:E; [exact Logic.I|].
  set (l := v0 :: l0) in *. destruct (grow_fold l (mk_rect INT_MAX INT_MIN INT_MAX INT_MIN) _ eq_refl) as [_ [F [C1 [C2 [C3 C4]]]]]. set (q := fold_left _ _ _) in *. cbn [xl xh yl yh] in C1, C2, C3, C4. intros q' Q.
  assert (N : forall v, In v l -> exists x y, covered45 (s_data s) x y = true /\ (IZR (px (v_pt v)) - 1 < x < IZR (px (v_pt v)) + 1)%R /\ (IZR (py (v_pt v)) - 1 < y < IZR (py (v_pt v)) + 1)%R).
  { intros v V. destruct (A v V) as [r [Hr K]]. destruct (near _ _ _ Hr K) as [x [y [K1 K2]]]. exists x, y. split; [|exact K2]. rewrite D in K1. destruct (covered45 (s_data s) x y); [reflexivity|congruence]. }
  assert (M : forall v, In v l -> is_int (px (v_pt v)) /\ is_int (py (v_pt v))).
  { intros v V. destruct (N v V) as [x [y [K1 [K2 K3]]]]. assert (K : depth45 (s_data s) x y <> 0) by (unfold covered45 in K1; lia).
    apply (outside_zero (mk_rect INT_MIN INT_MAX INT_MIN INT_MAX) _ x y B) in K; [|unfold int45 in I; revert I; apply Forall_impl; unfold inside, is_int; cbn [xl xh yl yh]; tauto]. cbn [xl xh yl yh] in K. unfold is_int.
    assert (T : forall z w, (IZR w - 1 < z < IZR w + 1)%R -> (IZR INT_MIN <= z <= IZR INT_MAX)%R -> INT_MIN <= w <= INT_MAX).
    { intros z w T1 T2. assert (IZR INT_MIN < IZR (w + 1))%R by (rewrite plus_IZR; lra). assert (IZR (w - 1) < IZR INT_MAX)%R by (rewrite minus_IZR; lra). apply lt_IZR in H, H0. lia. }
    split; [apply (T x)|apply (T y)]; try assumption; lra. }
  assert (V0 : In v0 l) by (left; reflexivity). rewrite Forall_forall in F.
  assert (W : forall v, In v l -> xl q' <= px (v_pt v) <= xh q' /\ yl q' <= py (v_pt v) <= yh q').
  { intros v V. destruct (N v V) as [x [y [K1 [K2 K3]]]]. specialize (Q x y K1). unfold in_rect_r in Q. rewrite !andb_true_iff, !rleb_iff, !rltb_iff in Q. destruct Q as [[[Q1 Q2] Q3] Q4].
    assert (T : forall z w, (IZR w < IZR z + 1)%R -> w <= z) by (intros z w T; apply Z.lt_succ_r, lt_IZR; rewrite succ_IZR; exact T).
    repeat split; apply T; lra. }
  pose proof (F v0 V0) as F0. pose proof (M v0 V0) as M0. pose proof (W v0 V0) as W0. unfold inside, is_int in *.
  split; [|split; [|split]].
  - destruct C1 as [C|[v [V C]]]; [lia|]. specialize (W v V). lia.
  - destruct C2 as [C|[v [V C]]]; [lia|]. specialize (W v V). lia.
  - destruct C3 as [C|[v [V C]]]; [lia|]. specialize (W v V). lia.
  - destruct C4 as [C|[v [V C]]]; [lia|]. specialize (W v V). lia.
Qed.
(* It is the smallest such rectangle with integer corners; proved for rectilinear sets, and for
   other sets if no vertex is left at which all counts cancel (the sweep leaves one where two
   straight boundaries cross). *)
Theorem C81_extents_smallest_partial : forall s ss,
  boundary45 (s_data s) -> (s_manhattan s = true -> rectilinear45 (s_data s)) -> int45 (s_data s) ->
  Permutation (s_data s) ss -> in_order ss ->
  (s_manhattan s = false -> forall r f, unary45 0 ss = Fine (r, f) -> Forall has_counts r) ->
  match extents_set45 s ss with
  | Fine (Some q) => forall q', (forall x y, covered45 (s_data s) x y = true -> in_rect_r q' x y = true) -> xl q' <= xl q /\ xh q <= xh q' /\ yl q' <= yl q /\ yh q <= yh q'
  | _ => True
  end.
Proof.
  intros s ss B R I P O N. unfold extents_set45, self_set45. destruct (s_manhattan s) eqn:M.
  - destruct (rect_self SelfOr45 s (conj B (fun _ => R eq_refl)) M I) as [t [-> [C [D _]]]]. cbn [rbind]. pose proof (smallest (from90 (ps_data t)) s (conj B (fun _ => R eq_refl)) I) as K.
    destruct (extents_data _) as [q|]; [|exact Logic.I]. apply K; [|apply canonical_counted, C; reflexivity]. intros x y. rewrite D. cbn [self_covers]. rewrite andb_diag. reflexivity.
  - pose proof (C78_self SelfOr45 _ _ B P O) as H. cbn [self_code] in *. destruct (unary45 0 ss) as [[r f]| |]; cbn [rbind fst snd s_data s_manhattan]; try exact Logic.I. destruct H as [H1 [H2 [H3 H4]]].
    assert (V : bvalid s) by (split; [exact B|intros Q; congruence]).
    pose proof (smallest (mk_set45 r f) s V I H1 (strict_counted r H3 (N eq_refl r f eq_refl))) as K. cbn [s_data] in K. destruct (extents_data r); [exact K|exact Logic.I].
Qed.
Print Assumptions C81_extents_smallest_partial.
(* The vertices that the sweep leaves are determined by what is covered, up to vertices at
   which all counts cancel: with none of these, operator== is exact for sets that are not
   marked as rectilinear. *)
Theorem C81_equal_partial : forall s t ss st,
  boundary45 (s_data s) -> boundary45 (s_data t) -> s_manhattan s = false -> s_manhattan t = false -> int45 (s_data s) -> int45 (s_data t) ->
  Permutation (s_data s) ss -> Permutation (s_data t) st -> in_order ss -> in_order st ->
  (forall r f, unary45 0 ss = Fine (r, f) -> Forall has_counts r) -> (forall r f, unary45 0 st = Fine (r, f) -> Forall has_counts r) ->
  match eq_set45 s t ss st with
  | Fine e => e = true <-> forall x y, covered45 (s_data s) x y = covered45 (s_data t) x y
  | Throw => True
  | Bad => False
  end.
Proof.
  intros s t ss st Bs Bt Ms Mt Is It Ps Pt Os Ot Ns Nt. unfold eq_set45, self_set45. rewrite Ms, Mt. cbn [self_code].
  pose proof (C78_self SelfOr45 _ _ Bs Ps Os) as H. pose proof (C78_self SelfOr45 _ _ Bt Pt Ot) as K. cbn [self_code] in H, K.
  destruct (unary45 0 ss) as [[a f]| |]; cbn [rbind fst snd s_data]; [|exact Logic.I|exact H]. destruct (unary45 0 st) as [[b g]| |]; cbn [rbind fst snd s_data]; [|exact Logic.I|exact K].
  specialize (Ns a f eq_refl). specialize (Nt b g eq_refl). destruct H as [H1 [[H2 _] [H3 _]]], K as [K1 [[K2 _] [K3 _]]]. cbn [self_covers] in H1, K1. rewrite data_eqb_iff. split.
  - intros E x y. specialize (H1 x y). specialize (K1 x y). rewrite E, K1 in H1. unfold covered45. destruct (0 <? depth45 (s_data s) x y), (0 <? depth45 (s_data t) x y); congruence.
  - intros E. assert (F : filter nonzero a = filter nonzero b) by (apply determined; try assumption; intros x y; rewrite H1, K1; specialize (E x y); unfold covered45 in E; rewrite E; reflexivity).
    assert (G : forall l, Forall has_counts l -> filter nonzero l = l) by (induction 1 as [|v l V W J]; [reflexivity|]; cbn [filter]; unfold nonzero at 1, no_counts; unfold has_counts in V; replace (negb _) with true by lia; f_equal; exact J).
    rewrite (G a Ns), (G b Nt) in F. exact F.
Qed.
Print Assumptions C81_equal_partial.
Theorem C81_determined : forall a b, strictly_in_order a -> strictly_in_order b -> boundary45 a -> boundary45 b ->
  (forall x y, depth45 a x y = depth45 b x y) ->
  filter (fun v => negb (no_counts v)) a = filter (fun v => negb (no_counts v)) b.
Proof. intros a b Sa Sb [Ba _] [Bb _] H. apply determined; assumption. Qed.
Print Assumptions C81_determined.
Example C81_demo :
  extents_set45 (insert_rect45 true (mk_rect (-9) (-5) 0 2) (insert_set45 false diamond_set squares)) (sort_v (s_data (insert_rect45 true (mk_rect (-9) (-5) 0 2) (insert_set45 false diamond_set squares)))) = Fine (Some (mk_rect 0 24 (-4) 4)) /\
  extents_set45 (insert_rect45 true (mk_rect 0 2 0 2) squares) [] = Fine (Some (mk_rect 2 4 2 4)) /\
  (exists r f, unary45 0 (sort_v (s_data (insert_set45 false diamond_set squares))) = Fine (r, f) /\ length r = 11%nat /\ Forall has_counts r) /\
  eq_set45 diamond_set (insert_set45 false diamond_set diamond_set) (sort_v (s_data diamond_set)) (sort_v (s_data (insert_set45 false diamond_set diamond_set))) = Fine true.
Proof.
  split; [vm_compute; reflexivity|]. split; [vm_compute; reflexivity|]. split; [|vm_compute; reflexivity]. eexists. eexists. split; [vm_compute; reflexivity|]. split; [reflexivity|]. repeat (apply Forall_cons || apply Forall_nil); unfold has_counts; cbn [v_down v_flat v_up]; lia.
Qed.
