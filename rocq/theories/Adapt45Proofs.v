(* Rectilinear sets of 45-degree polygons and their rectilinear vertex data. *)
From Coq Require Import Reals Lra Sorting.Sorted Permutation.
From Verif Require Import Base Units Outcome Scan90Spec Poly90Spec BoolOpModel VertexLemmas BoolOpProofs Set90Spec Set90Model Set90Lemmas Set90Proofs GeoSpec PolySpec ArbSpec ArbOrder Ins45Spec Ins45Model Ins45Proofs Ins45Cor Scan45Model Scan45Base Scan45Step Bool45Spec Bool45Model Bool45Proofs Bool45Insert Adapt45Spec Adapt45Model.
From Coq Require Import Lra.
Local Open Scope Z_scope.

(* the cell of a place *)
Lemma cell_x x : exists X, forall a, rleb (IZR a) x = (a <=? X).
Proof.
  exists (up x - 1). intros a. destruct (archimed x) as [A B]. apply ArbSums.bool_eq. rewrite rleb_iff, Z.leb_le. split; intros H.
  - assert (IZR a < IZR (up x))%R by lra. apply lt_IZR in H0. lia.
  - apply IZR_le in H. rewrite minus_IZR in H. lra.
Qed.
Lemma cell_y y : exists Y, forall a, rltb (IZR a) y = (a <=? Y).
Proof.
  exists (- up (- y)). intros a. destruct (archimed (- y)) as [A B]. apply ArbSums.bool_eq. rewrite rltb_iff, Z.leb_le. split; intros H.
  - assert (K : (IZR (up (- y)) < IZR (1 - a))%R) by (rewrite minus_IZR; lra). apply lt_IZR in K. lia.
  - apply IZR_le in H. rewrite opp_IZR in H. lra.
Qed.
Lemma axis_depth_r v x y : axis_vertex v -> v45_depth v x y = if rleb (IZR (px (v_pt v))) x && rltb (IZR (py (v_pt v))) y then v_flat v else 0.
Proof.
  intros [E1 E2]. unfold v45_depth, line_below. rewrite E1, E2. replace (IZR (py (v_pt v)) + 0 * (x - IZR (px (v_pt v))))%R with (IZR (py (v_pt v))) by ring.
  destruct (rleb _ _); [|reflexivity]. destruct (rltb (IZR (py (v_pt v))) y), (rltb (_ + -1 * _) y), (rltb (_ + 1 * _) y); cbn [andb]; lia.
Qed.
Definition data90 (l : list v45) : list vertex := map (fun v => (px (v_pt v), (py (v_pt v), v_vert v))) (filter (fun v => negb (v_vert v =? 0)) l).
Lemma rect_place x y : exists X Y, forall l, Forall balanced l -> rectilinear45 l -> depth45 l x y = cnt (data90 l) X Y.
Proof.
  destruct (cell_x x) as [X HX], (cell_y y) as [Y HY]. exists X, Y. intros l A B. induction l as [|v l IH]; [reflexivity|]. inversion A as [|? ? A1 A2]; subst. inversion B as [|? ? B1 B2]; subst. unfold depth45. cbn [tot]. fold (depth45 l x y). rewrite (IH A2 B2), (axis_depth_r v x y B1), HX, HY.
  unfold data90. cbn [filter]. destruct B1 as [B0 B1]. unfold balanced in A1. destruct (negb (v_vert v =? 0)) eqn:Q; cbn [map cnt]; unfold vx, vy, vc; cbn [fst snd]; destruct ((px (v_pt v) <=? X) && (py (v_pt v) <=? Y)); lia.
Qed.
Lemma data90_closed l : boundary45 l -> rectilinear45 l -> Scan90Spec.closed (data90 l).
Proof.
  intros [A [B C]] D. split.
  - intros x. refine (eq_trans _ (C x)). clear. unfold column_total, data90. induction l as [|v l IH]; [reflexivity|]. cbn [filter tot]. destruct (negb (v_vert v =? 0)) eqn:Q; cbn [map col_total]; unfold vx, vc in *; cbn [fst snd] in *; rewrite IH; destruct (_ =? x); lia.
  - intros y. refine (eq_trans _ (B 0 y ltac:(lia))). clear B C. unfold line_total, data90. induction l as [|v l IH]; [reflexivity|]. inversion A as [|? ? A1 A2]; subst. inversion D as [|? ? D1 D2]; subst. specialize (IH A2 D2). cbn [filter tot]. replace (slope_count v 0) with (v_vert v) by (unfold slope_count; cbn [Z.eqb]; destruct D1; unfold balanced in A1; lia). replace (0 * px (v_pt v) + y) with y by lia.
    destruct (negb (v_vert v =? 0)) eqn:Q; cbn [map row_total]; unfold vy, vc in *; cbn [fst snd] in *; rewrite IH; destruct (_ =? y); lia.
Qed.
Lemma data90_int l : int45 l -> dint (data90 l).
Proof. intros H. unfold data90, dint. apply Forall_map. apply Forall_forall. intros v V. apply filter_In in V as [V _]. unfold int45 in H. rewrite Forall_forall in H. exact (H v V). Qed.

(* the sets of the rectilinear computation *)
Lemma insert_vertices l : forall t, ps_orient t = Vertical -> fold_left (fun t v => ps_insert_vertex t v false Vertical) l t = mk_ps Vertical (ps_data t ++ l) (match l with [] => ps_dirty t | _ => true end) (match l with [] => ps_unsorted t | _ => true end).
Proof.
  induction l as [|v l IH]; intros t O; cbn [fold_left].
  - rewrite app_nil_r, <- O. destruct t; reflexivity.
  - rewrite IH by exact O. unfold ps_insert_vertex. rewrite O. cbn [orient_eqb ps_data ps_dirty ps_unsorted]. rewrite <- app_assoc. destruct l; reflexivity.
Qed.
Lemma set90_ok s : bvalid s -> s_manhattan s = true -> int45 (s_data s) ->
  ps_ok (set90_of s) /\ ps_orient (set90_of s) = Vertical /\ ps_unsorted (set90_of s) = false /\ Permutation (ps_data (set90_of s)) (data90 (s_data s)) /\ StronglySorted pos_le (ps_data (set90_of s)) /\ (ps_dirty (set90_of s) = false -> data90 (s_data s) = []).
Proof.
  intros [B R] M I. specialize (R M). unfold set90_of. rewrite insert_vertices by reflexivity. cbn [ps_new ps_data ps_dirty ps_unsorted app]. change (manhattan_data s) with (data90 (s_data s)).
  pose proof (data90_closed _ B R) as C. pose proof (data90_int _ I) as D. set (l := data90 (s_data s)) in *.
  assert (O : ps_ok (mk_ps Vertical l (match l with [] => false | _ => true end) (match l with [] => false | _ => true end))).
  { constructor; cbn [ps_data ps_dirty ps_unsorted]; [exact C|exact D| |]; destruct l; try discriminate; intros _; [constructor|]. split; [apply clean_ok_nil|]. intros x y. left. reflexivity. }
  destruct (ps_sort_spec _ O) as [O1 [E1 [E2 [E3 [P S]]]]]. split; [exact O1|]. split; [exact E1|]. split; [exact E3|]. split; [exact P|]. split; [exact S|]. rewrite E2. cbn [ps_dirty]. destruct l; [reflexivity|discriminate].
Qed.

(* back *)
Lemma from90_data d : s_data (from90 d) = map (vertex_of_90 false Vertical) d.
Proof.
  unfold from90, insert_set90. cbn [s_data]. assert (H : forall l s, s_data (fold_left (fun s v => insert_clean45 false (vertex_of_90 false Vertical v) s) l s) = s_data s ++ map (vertex_of_90 false Vertical) l).
  { induction l as [|v l IH]; intros s; cbn [fold_left map]; [rewrite app_nil_r; reflexivity|]. rewrite IH. unfold insert_clean45. cbn [s_data]. rewrite <- app_assoc. reflexivity. }
  apply H.
Qed.
Lemma from90_rect d : Forall balanced (s_data (from90 d)) /\ rectilinear45 (s_data (from90 d)).
Proof. rewrite from90_data. split; apply Forall_map, Forall_forall; intros v _; [unfold balanced|split]; unfold vertex_of_90; cbn [v_vert v_down v_flat v_up]; lia. Qed.
Lemma from90_boundary d : Scan90Spec.closed d -> boundary45 (s_data (from90 d)).
Proof.
  intros [C R]. split; [apply from90_rect|]. rewrite from90_data. split.
  - intros r b Hr. unfold line_total. assert (r = 0 \/ r <> 0) as [-> | N] by lia.
    + refine (eq_trans _ (R b)). clear. induction d as [|v d IH]; [reflexivity|]. cbn [map tot row_total]. rewrite IH. reflexivity.
    + clear - N Hr. induction d as [|v d IH]; [reflexivity|]. cbn [map tot]. rewrite IH. unfold vertex_of_90, slope_count. cbn [v_pt v_down v_flat v_up px py]. replace (r =? 0) with false by lia. repeat match goal with |- context [?p =? ?q] => destruct (p =? q) end; reflexivity.
  - intros x. refine (eq_trans _ (C x)). clear. unfold column_total. induction d as [|v d IH]; [reflexivity|]. cbn [map tot col_total]. rewrite IH. reflexivity.
Qed.
Lemma from90_order d : StronglySorted pos_le d -> in_order (s_data (from90 d)).
Proof.
  rewrite from90_data. unfold in_order. induction 1 as [|v d S IH F]; cbn [map]; constructor; [exact IH|]. apply Forall_map. revert F. apply Forall_impl. intros w. unfold pos_le, pt_le, pt_lt, vertex_of_90. cbn [v_pt px py]. intros [H|[H1 H2]]; [left; left; exact H|].
  destruct (Z.eq_dec (vy v) (vy w)) as [E|N]; [right; congruence|left; right; lia].
Qed.
Lemma from90_cnt d X Y : cnt (data90 (s_data (from90 d))) X Y = cnt d X Y.
Proof.
  rewrite from90_data. induction d as [|v d IH]; [reflexivity|]. unfold data90 in *. cbn [map filter]. cbn [vertex_of_90 v_vert]. destruct (negb (vc v =? 0)) eqn:Q; cbn [map cnt]; rewrite IH; unfold vx, vy, vc in *; cbn [vertex_of_90 v_pt v_vert fst snd px py]; [reflexivity|]. cbn [fst snd] in *. unfold vc in *. destruct (_ && _); lia.
Qed.
Lemma from90_depth d s x y f : bvalid s -> s_manhattan s = true -> (forall X Y, cnt d X Y = f (cnt (data90 (s_data s)) X Y)) -> depth45 (s_data (from90 d)) x y = f (depth45 (s_data s) x y).
Proof.
  intros [[B _] R] M H. destruct (rect_place x y) as [X [Y P]]. destruct (from90_rect d) as [F1 F2]. rewrite (P _ F1 F2), (P _ B (R M)), from90_cnt. apply H.
Qed.
Lemma from90_depth2 d s t x y f : bvalid s -> s_manhattan s = true -> bvalid t -> s_manhattan t = true -> (forall X Y, cnt d X Y = f (cnt (data90 (s_data s)) X Y) (cnt (data90 (s_data t)) X Y)) -> depth45 (s_data (from90 d)) x y = f (depth45 (s_data s) x y) (depth45 (s_data t) x y).
Proof.
  intros [[B _] R] M [[B' _] R'] M' H. destruct (rect_place x y) as [X [Y P]]. destruct (from90_rect d) as [F1 F2]. rewrite (P _ F1 F2), (P _ B (R M)), (P _ B' (R' M')), from90_cnt. apply H.
Qed.

Definition good_result (u : set45) (f : R -> R -> Z) : Prop :=
  (forall x y, depth45 (s_data u) x y = f x y) /\ boundary45 (s_data u) /\ in_order (s_data u) /\ (s_manhattan u = true <-> rectilinear45 (s_data u)).

Lemma rect_boolean o s t : bvalid s -> bvalid t -> s_manhattan s = true -> s_manhattan t = true -> int45 (s_data s) -> int45 (s_data t) ->
  exists out, applyBooleanBinaryOp (functor90 o) INT_MAX (ps_data (set90_of s)) (ps_data (set90_of t)) = Some out /\ canonical out /\
    good_result (from90 out) (fun x y => if op_covers o (covered45 (s_data s) x y) (covered45 (s_data t) x y) then 1 else 0).
Proof.
  intros Bs Bt Ms Mt Is It. destruct (set90_ok s Bs Ms Is) as [Os [_ [_ [Ps [Ss _]]]]]. destruct (set90_ok t Bt Mt It) as [Ot [_ [_ [Pt [St _]]]]].
  assert (BM : below_max INT_MAX (ps_data (set90_of t))).
  { pose proof (ok_int _ Ot) as D. unfold dint, vint, is_int in D. unfold below_max. revert D. apply Forall_impl. intros v. lia. }
  destruct (applyBooleanBinaryOp_spec (functor90 o) ltac:(destruct o; reflexivity) INT_MAX _ _ Ss St BM (proj1 (ok_closed _ Os)) (proj1 (ok_closed _ Ot))) as [out [E [C H]]]. exists out. split; [exact E|]. split; [exact C|].
  assert (K : forall X Y, cnt out X Y = b2z (functor90 o (cnt (data90 (s_data s)) X Y) (cnt (data90 (s_data t)) X Y))) by (intros X Y; rewrite H, (cnt_perm _ _ Ps), (cnt_perm _ _ Pt); reflexivity).
  split; [|split; [|split]].
  - intros x y. rewrite (from90_depth2 out s t x y (fun a b => b2z (functor90 o a b)) Bs Ms Bt Mt K). unfold covered45. destruct o; cbn [functor90 op_covers]; unfold BinaryOr, BinaryAnd, BinaryNot, BinaryXor; rewrite ?Z.gtb_ltb; reflexivity.
  - apply from90_boundary. apply (closed_of_cnt2 out (ps_data (set90_of s)) (ps_data (set90_of t)) (fun a b => b2z (functor90 o a b))); [destruct o; reflexivity|exact H|apply ok_closed, Os|apply ok_closed, Ot].
  - apply from90_order, canonical_sorted, C.
  - split; [intros _; apply from90_rect|reflexivity].
Qed.
Lemma rect_self o s : bvalid s -> s_manhattan s = true -> int45 (s_data s) ->
  exists t, unary90 o (set90_of s) = Some t /\ (o = SelfOr45 -> canonical (ps_data t)) /\
    good_result (from90 (ps_data t)) (fun x y => if (0 <? depth45 (s_data s) x y) && self_covers o (depth45 (s_data s) x y) then 1 else 0).
Proof.
  intros B M I. destruct (set90_ok s B M I) as [O [V [U [P [S D]]]]].
  assert (Main : exists t, unary90 o (set90_of s) = Some t /\ (o = SelfOr45 -> canonical (ps_data t)) /\ StronglySorted pos_le (ps_data t) /\ Scan90Spec.closed (ps_data t) /\ forall X Y, cnt (ps_data t) X Y = b2z ((0 <? cnt (ps_data (set90_of s)) X Y) && self_covers o (cnt (ps_data (set90_of s)) X Y))).
  { destruct o; cbn [unary90 self_covers].
    - destruct (ps_clean_spec _ O) as [t [E [K [_ [_ [Z1 [C H]]]]]]]. exists t. split; [exact E|]. split; [intros _; exact C|]. split; [apply canonical_sorted, C|]. split; [apply ok_closed, K|]. intros X Y. rewrite H, Z.gtb_ltb, andb_diag. reflexivity.
    - destruct (ps_self_intersect_spec _ O) as [t [E [K [_ [_ H]]]]]. exists t. split; [exact E|]. split; [discriminate|]. split; [|split; [apply ok_closed, K|]].
      + apply (ok_sorted _ K). unfold ps_self_intersect in E. destruct (ps_dirty (ps_sort (set90_of s))).
        * destruct (ps_sort_spec _ O) as [O' _]. set (r := mk_rect INT_MIN INT_MAX INT_MIN INT_MAX) in *.
          assert (Hr : rect_ok r) by (unfold rect_ok, r, INT_MIN, INT_MAX; cbn [xl xh yl yh]; lia).
          assert (I1 : is_int INT_MIN) by (unfold is_int, INT_MIN, INT_MAX; lia). assert (I2 : is_int INT_MAX) by (unfold is_int, INT_MIN, INT_MAX; lia).
          destruct (ps_insert_rect_spec (ps_sort (set90_of s)) r true O' Hr I1 I2 I1 I2) as [A _]. destruct (ps_clean_spec _ A) as [t' [K1 [_ [_ [_ [K5 _]]]]]]. assert (t' = t) by congruence. subst t'. exact K5.
        * inversion E as [E1]. unfold ps_sort. rewrite U. exact U.
      + intros X Y. rewrite V in H. cbn [wind] in H. rewrite H. destruct (ps_dirty (set90_of s)) eqn:Q.
        * f_equal. lia.
        * rewrite (cnt_perm _ _ P), (D eq_refl). reflexivity.
    - unfold ps_self_xor. replace (ps_sort (set90_of s)) with (set90_of s) by (unfold ps_sort at 1; rewrite U; reflexivity). destruct (ps_dirty (set90_of s)) eqn:Q.
      + destruct (applyBooleanOr_unary_spec INT_MAX _ S (proj1 (ok_closed _ O))) as [out [E [C H]]]. rewrite E. cbn [bind]. eexists. split; [reflexivity|]. cbn [ps_data]. split; [discriminate|]. split; [apply canonical_sorted, C|]. split.
        * apply (closed_of_cnt out (ps_data (set90_of s)) (fun c => b2z ((c >? 0) && Z.odd c))); [reflexivity|exact H|apply ok_closed, O].
        * intros X Y. rewrite H, Z.gtb_ltb. reflexivity.
      + eexists. split; [reflexivity|]. split; [discriminate|]. split; [exact S|]. split; [apply ok_closed, O|]. intros X Y. rewrite (cnt_perm _ _ P), (D eq_refl). reflexivity. }
  destruct Main as [t [E [C [S' [K H]]]]]. exists t. split; [exact E|]. split; [exact C|]. split; [|split; [|split]].
  - intros x y. rewrite (from90_depth (ps_data t) s x y (fun c => b2z ((0 <? c) && self_covers o c)) B M); [reflexivity|]. intros X Y. rewrite H, (cnt_perm _ _ P). reflexivity.
  - apply from90_boundary, K.
  - apply from90_order, S'.
  - split; [intros _; apply from90_rect|reflexivity].
Qed.

Lemma strict_in_order l : strictly_in_order l -> in_order l.
Proof. unfold strictly_in_order, in_order. induction 1 as [|v l S IH F]; constructor; [exact IH|]. revert F. apply Forall_impl. intros w. left. assumption. Qed.
