(* Scaling and snapping of sets of 45-degree polygons, and when the sweep does not throw. *)
From Coq Require Import Sorting.Sorted Permutation Reals Lra.
From Verif Require Import Base Units Scan90Spec Poly90Spec Poly90Model Poly90Proofs ArbSpec ArbSums ArbOrder Ins45Spec Ins45Model Scan45Model Scan45Even Bool45Spec Bool45Model Bool45Proofs Snap45Spec.
Local Open Scope Z_scope.

Lemma parity_pt p : same_parity p <-> even_pt p.
Proof. unfold same_parity, even_pt. rewrite Z.even_add. destruct (Z.even (px p)), (Z.even (py p)); cbn; split; congruence. Qed.
Definition evv (v : v45) : Prop := v_down v <> 0 \/ v_up v <> 0 -> even_pt (v_pt v).
Lemma even_iff l : even_diagonals l <-> Forall evv l.
Proof. unfold even_diagonals, evv. rewrite !Forall_forall. split; intros H v I N; apply parity_pt, H; assumption. Qed.
Lemma left_eev v : evv v -> eev (ev_left v).
Proof. unfold evv, eev, ev_left, cz. cbn [n_pt n_0 n_2]. intros H [N|N]; apply H; [left|right]; intros E; apply N; rewrite E; reflexivity. Qed.
Lemma right_eev v : evv v -> eev (ev_right v).
Proof. unfold evv, eev, ev_right, cz. cbn [n_pt n_0 n_2]. intros H [N|N]; apply H; [left|right]; intros E; apply N; rewrite E; reflexivity. Qed.
Lemma both_eev v w : v_pt v = v_pt w -> evv v -> evv w -> eev (ev_both v w).
Proof.
  unfold evv, eev, ev_both, cz. cbn [n_pt n_0 n_2]. intros P V W N. rewrite P in V.
  destruct (Z.eq_dec (v_down v) 0) as [A|A]; [|auto]. destruct (Z.eq_dec (v_up v) 0) as [B|B]; [|auto]. destruct N as [N|N]; apply W; [left|right]; intros E; apply N; rewrite E, ?A, ?B; reflexivity.
Qed.
Lemma merge_eev a b : Forall evv a -> Forall evv b -> Forall eev (merge45 a b).
Proof.
  intros A. revert b. induction A as [|v a V A IH]; intros b B.
  - rewrite merge_nil_l. induction B; cbn [map]; constructor; [apply right_eev; assumption|assumption].
  - induction B as [|w b W B IHb]; [rewrite merge_nil; cbn [map]; constructor; [apply left_eev, V|]; rewrite <- merge_nil; apply IH; constructor|].
    rewrite merge_cons. destruct (pt_ltb (v_pt w) (v_pt v)) eqn:E1; [constructor; [apply right_eev, W|exact IHb]|]. destruct (pt_ltb (v_pt v) (v_pt w)) eqn:E2; constructor.
    + apply left_eev, V.
    + apply IH. constructor; assumption.
    + apply both_eev; [apply pt_total; assumption|assumption|assumption].
    + apply IH, B.
Qed.
Lemma perm_even a b : Permutation a b -> even_diagonals a -> even_diagonals b.
Proof. intros P H. unfold even_diagonals in *. rewrite Forall_forall in *. intros v I. apply H. exact (Permutation_in v (Permutation_sym P) I). Qed.
Lemma run_even keep a b : even_diagonals a -> even_diagonals b -> (run o <- scan_all keep (merge45 a b); Fine (finish45 o)) <> Throw.
Proof.
  rewrite !even_iff. intros A B H. pose proof (scan_all_safe keep _ (merge_eev a b A B)) as S. destruct (scan_all _ _); cbn [rbind safe] in *; [discriminate|exact S|discriminate].
Qed.

(* ---------- scaling ---------- *)
Lemma scale_even l : even_diagonals (map (scale45 2) l).
Proof. unfold even_diagonals. apply Forall_forall. intros v I _. apply in_map_iff in I as [u [<- _]]. unfold same_parity, scale45. cbn [v_pt px py]. rewrite !Z.even_mul. cbn [Z.even]. rewrite !orb_true_r. reflexivity. Qed.
Lemma scale_order k l : 0 < k -> in_order l -> in_order (map (scale45 k) l).
Proof.
  intros K. unfold in_order. induction 1 as [|v l S IH F]; cbn [map]; constructor; [exact IH|]. rewrite Forall_forall in *. intros w I. apply in_map_iff in I as [u [<- U]]. specialize (F u U).
  unfold scale45. cbn [v_pt]. destruct F as [F|F]; [left; unfold pt_lt in *; cbn [px py]; nia|right; rewrite F; reflexivity].
Qed.
Lemma scale_line k r b l : 0 < k -> line_total r b (map (scale45 k) l) = if b mod k =? 0 then line_total r (b / k) l else 0.
Proof.
  intros K. unfold line_total. rewrite tot_map. pose proof (Z.div_mod b k ltac:(lia)) as D. pose proof (Z.mod_pos_bound b k K) as M. destruct (b mod k =? 0) eqn:E.
  - apply tot_ext. intros v _. unfold scale45. cbn [v_pt px py]. unfold slope_count. cbn [v_down v_flat v_up].
    assert (py (v_pt v) * k =? r * (px (v_pt v) * k) + b = (py (v_pt v) =? r * px (v_pt v) + b / k)) as -> by (apply bool_eq; rewrite !Z.eqb_eq; nia). reflexivity.
  - apply tot_zero. intros v _. unfold scale45. cbn [v_pt px py].
    assert (py (v_pt v) * k =? r * (px (v_pt v) * k) + b = false) as -> by (apply Z.eqb_neq; intros H; assert (b = k * (py (v_pt v) - r * px (v_pt v))) as Hb by lia; rewrite Hb, Z.mul_comm, Z.mod_mul in E by lia; discriminate). reflexivity.
Qed.
Lemma scale_column k x l : 0 < k -> column_total x (map (scale45 k) l) = if x mod k =? 0 then column_total (x / k) l else 0.
Proof.
  intros K. unfold column_total. rewrite tot_map. pose proof (Z.div_mod x k ltac:(lia)) as D. pose proof (Z.mod_pos_bound x k K) as M. destruct (x mod k =? 0) eqn:E.
  - apply tot_ext. intros v _. unfold scale45. cbn [v_pt px py v_vert].
    assert (px (v_pt v) * k =? x = (px (v_pt v) =? x / k)) as -> by (apply bool_eq; rewrite !Z.eqb_eq; nia). reflexivity.
  - apply tot_zero. intros v _. unfold scale45. cbn [v_pt px py].
    assert (px (v_pt v) * k =? x = false) as -> by (apply Z.eqb_neq; intros H; subst x; rewrite Z.mod_mul in E by lia; discriminate). reflexivity.
Qed.
Lemma scale_boundary k l : 0 < k -> boundary45 l -> boundary45 (map (scale45 k) l).
Proof.
  intros K [B1 [B2 B3]]. split; [|split].
  - rewrite Forall_forall in *. intros v I. apply in_map_iff in I as [u [<- U]]. exact (B1 u U).
  - intros r b R. rewrite scale_line by exact K. destruct (_ =? _); [apply B2, R|reflexivity].
  - intros x. rewrite scale_column by exact K. destruct (_ =? _); [apply B3|reflexivity].
Qed.
Lemma rltb_scale k a b : (0 < k)%R -> rltb (k * a) (k * b) = rltb a b.
Proof. intros K. apply bool_eq. rewrite !rltb_iff. split; intros H; [apply (Rmult_lt_reg_l k); assumption|apply Rmult_lt_compat_l; assumption]. Qed.
Lemma rleb_scale k a b : (0 < k)%R -> rleb (k * a) (k * b) = rleb a b.
Proof. intros K. apply bool_eq. rewrite !rleb_iff. split; intros H; [apply (Rmult_le_reg_l k); assumption|apply Rmult_le_compat_l; lra]. Qed.
Lemma scale_depth k l x y : 0 < k -> depth45 (map (scale45 k) l) (IZR k * x) (IZR k * y) = depth45 l x y.
Proof.
  intros K. assert (P : (0 < IZR k)%R) by (apply IZR_lt; exact K). unfold depth45. rewrite tot_map. apply tot_ext. intros v _. unfold v45_depth, scale45. cbn [v_pt px py v_down v_flat v_up].
  assert (L : forall r, line_below r (mk_pt (px (v_pt v) * k) (py (v_pt v) * k)) (IZR k * x) (IZR k * y) = line_below r (v_pt v) x y).
  { intros r. unfold line_below. cbn [px py]. rewrite !mult_IZR, <- (rltb_scale (IZR k) (IZR (py (v_pt v)) + r * (x - IZR (px (v_pt v)))) y) by exact P. f_equal. ring. }
  rewrite !L, mult_IZR, (Rmult_comm _ (IZR k)), rleb_scale by exact P. reflexivity.
Qed.

(* ---------- snapping ---------- *)
Definition odd_pt (p : point) : bool := Z.odd (px p + py p).
Lemma rem_parity p : negb (Z.rem (Z.abs (px p)) 2 =? Z.rem (Z.abs (py p)) 2) = odd_pt p.
Proof.
  unfold odd_pt. rewrite !Z.rem_mod_nonneg by lia.
  pose proof (Z.mod_pos_bound (Z.abs (px p)) 2 ltac:(lia)). pose proof (Z.mod_pos_bound (Z.abs (py p)) 2 ltac:(lia)).
  pose proof (Z.div_mod (Z.abs (px p)) 2 ltac:(lia)). pose proof (Z.div_mod (Z.abs (py p)) 2 ltac:(lia)).
  apply bool_eq. rewrite negb_true_iff, Z.eqb_neq, Z.odd_spec. unfold Z.Odd. split.
  - intros N. destruct (Z.abs_spec (px p)) as [[_ A]|[_ A]], (Z.abs_spec (py p)) as [[_ B]|[_ B]].
    + exists (Z.abs (px p) / 2 + Z.abs (py p) / 2). lia.
    + exists (Z.abs (px p) / 2 - Z.abs (py p) / 2 - Z.abs (py p) mod 2). lia.
    + exists (Z.abs (py p) / 2 - Z.abs (px p) / 2 - Z.abs (px p) mod 2). lia.
    + exists (- (Z.abs (px p) / 2) - Z.abs (py p) / 2 - 1). lia.
  - intros [m M] N. destruct (Z.abs_spec (px p)) as [[_ A]|[_ A]], (Z.abs_spec (py p)) as [[_ B]|[_ B]]; lia.
Qed.
Definition skew (v : v45) : Prop := v_down v <> 0 \/ v_up v <> 0.
(* what snapping does, case by case *)
Lemma snap_cases v : same_counts (snap45 v) v /\
  ((~ skew v \/ even_pt (v_pt v)) /\ snap45 v = v \/
   skew v /\ odd_pt (v_pt v) = true /\ (v_flat v <> 0 \/ v_up v <> 0 /\ v_down v <> 0) /\ v_pt (snap45 v) = mk_pt (px (v_pt v) + 1) (py (v_pt v)) \/
   skew v /\ odd_pt (v_pt v) = true /\ v_flat v = 0 /\ v_up v <> 0 /\ v_down v = 0 /\ v_pt (snap45 v) = mk_pt (px (v_pt v)) (py (v_pt v) - 1) \/
   skew v /\ odd_pt (v_pt v) = true /\ v_flat v = 0 /\ v_up v = 0 /\ v_down v <> 0 /\ v_pt (snap45 v) = mk_pt (px (v_pt v)) (py (v_pt v) + 1)).
Proof.
  unfold snap45. rewrite rem_parity. unfold skew, same_counts, even_pt.
  destruct (v_up v =? 0) eqn:U, (v_down v =? 0) eqn:D; cbn [negb orb andb].
  - split; [repeat split|]. left. split; [left; lia|reflexivity].
  - destruct (odd_pt (v_pt v)) eqn:O; [|split; [repeat split|]; left; split; [right; rewrite <- Z.negb_odd; unfold odd_pt in O; rewrite O; reflexivity|reflexivity]].
    rewrite orb_false_r. destruct (v_flat v =? 0) eqn:F; cbn [negb]; (split; [repeat split|]); right; unfold move45; cbn [v_pt].
    + right. right. repeat split; try lia. f_equal; lia.
    + left. repeat split; try lia. f_equal; lia.
  - destruct (odd_pt (v_pt v)) eqn:O; [|split; [repeat split|]; left; split; [right; rewrite <- Z.negb_odd; unfold odd_pt in O; rewrite O; reflexivity|reflexivity]].
    rewrite orb_false_r. destruct (v_flat v =? 0) eqn:F; cbn [negb]; (split; [repeat split|]); right; unfold move45; cbn [v_pt].
    + right. left. repeat split; try lia. f_equal; lia.
    + left. repeat split; try lia. f_equal; lia.
  - destruct (odd_pt (v_pt v)) eqn:O; [|split; [repeat split|]; left; split; [right; rewrite <- Z.negb_odd; unfold odd_pt in O; rewrite O; reflexivity|reflexivity]].
    rewrite orb_true_r. split; [repeat split|]. right. left. unfold move45. cbn [v_pt]. repeat split; try lia. f_equal; lia.
Qed.
Lemma odd_half z : Z.odd z = true <-> exists k, z = 2 * k + 1.
Proof. rewrite Z.odd_spec. reflexivity. Qed.
Lemma snap_even v : evv (snap45 v).
Proof.
  destruct (snap_cases v) as [[C1 [_ [C2 _]]] H]. unfold evv. rewrite C1, C2. intros N.
  destruct H as [[[H|H] E]|[[_ [O [_ E]]]|[[_ [O [_ [_ [_ E]]]]]|[_ [O [_ [_ [_ E]]]]]]]].
  - exfalso. apply H, N.
  - rewrite E. exact H.
  - rewrite E. unfold even_pt, odd_pt in *. cbn [px py]. apply odd_half in O as [k O]. apply even_half. exists (k + 1). lia.
  - rewrite E. unfold even_pt, odd_pt in *. cbn [px py]. apply odd_half in O as [k O]. apply even_half. exists k. lia.
  - rewrite E. unfold even_pt, odd_pt in *. cbn [px py]. apply odd_half in O as [k O]. apply even_half. exists (k + 1). lia.
Qed.
Ltac zcase := repeat match goal with
  | |- context [?a =? ?b] => destruct (Z.eqb_spec a b)
  end; try lia.
(* the line of slope r through a vertex moves with its intercept only *)
Lemma snap_up v b : (if py (v_pt (snap45 v)) =? 1 * px (v_pt (snap45 v)) + b then v_up v else 0) =
  if Z.even b then (if py (v_pt v) =? 1 * px (v_pt v) + b then v_up v else 0) + (if py (v_pt v) =? 1 * px (v_pt v) + (b + 1) then v_up v else 0) else 0.
Proof.
  destruct (Z.eq_dec (v_up v) 0) as [U|U]; [rewrite U; destruct (Z.even b); repeat match goal with |- context [?p =? ?q] => destruct (p =? q) end; reflexivity|].
  destruct (Z.even b) eqn:B; [apply even_half in B as [c B]|rewrite <- Z.negb_odd in B; apply negb_false_iff, odd_half in B as [c B]];
  (destruct (snap_cases v) as [_ [[[H|H] E]|[[_ [O [_ E]]]|[[_ [O [_ [_ [_ E]]]]]|[_ [O [_ [N [_ E]]]]]]]]];
   [exfalso; apply H; right; exact U|apply even_half in H as [d H]; rewrite E|apply odd_half in O as [d O]; rewrite E|apply odd_half in O as [d O]; rewrite E|congruence]); cbn [px py]; zcase.
Qed.
Lemma snap_down v b : (if py (v_pt (snap45 v)) =? -1 * px (v_pt (snap45 v)) + b then v_down v else 0) =
  if Z.even b then (if py (v_pt v) =? -1 * px (v_pt v) + b then v_down v else 0) + (if py (v_pt v) =? -1 * px (v_pt v) + (b - 1) then v_down v else 0) else 0.
Proof.
  destruct (Z.eq_dec (v_down v) 0) as [U|U]; [rewrite U; destruct (Z.even b); repeat match goal with |- context [?p =? ?q] => destruct (p =? q) end; reflexivity|].
  destruct (Z.even b) eqn:B; [apply even_half in B as [c B]|rewrite <- Z.negb_odd in B; apply negb_false_iff, odd_half in B as [c B]];
  (destruct (snap_cases v) as [_ [[[H|H] E]|[[_ [O [_ E]]]|[[_ [O [_ [_ [N E]]]]]|[_ [O [_ [_ [_ E]]]]]]]]];
   [exfalso; apply H; left; exact U|apply even_half in H as [d H]; rewrite E|apply odd_half in O as [d O]; rewrite E|congruence|apply odd_half in O as [d O]; rewrite E]); cbn [px py]; zcase.
Qed.
Lemma snap_flat v b : (if py (v_pt (snap45 v)) =? 0 * px (v_pt (snap45 v)) + b then v_flat v else 0) = if py (v_pt v) =? 0 * px (v_pt v) + b then v_flat v else 0.
Proof.
  destruct (snap_cases v) as [_ [[_ E]|[[_ [_ [_ E]]]|[[_ [_ [F [_ [_ E]]]]]|[_ [_ [F [_ [_ E]]]]]]]]]; rewrite E; cbn [px py]; try reflexivity; rewrite F; repeat match goal with |- context [?p =? ?q] => destruct (p =? q) end; reflexivity.
Qed.
Lemma snap_vert v x : simple_vertex v -> (if px (v_pt (snap45 v)) =? x then v_vert v else 0) = if px (v_pt v) =? x then v_vert v else 0.
Proof.
  intros S. destruct (Z.eq_dec (v_vert v) 0) as [V|V]; [rewrite V; repeat match goal with |- context [?p =? ?q] => destruct (p =? q) end; reflexivity|].
  destruct (snap_cases v) as [_ [[_ E]|[[K [_ [N E]]]|[[_ [_ [_ [_ [_ E]]]]]|[_ [_ [_ [_ [_ E]]]]]]]]]; rewrite E; cbn [px py]; try reflexivity. destruct (S V K). lia.
Qed.
Lemma snap_boundary l : Forall simple_vertex l -> boundary45 l -> boundary45 (map snap45 l).
Proof.
  intros S [B1 [B2 B3]]. assert (C : forall v, same_counts (snap45 v) v) by (intros v; apply snap_cases). split; [|split].
  - rewrite Forall_forall in *. intros v I. apply in_map_iff in I as [u [<- U]]. unfold balanced in *. destruct (C u) as [-> [-> [-> ->]]]. exact (B1 u U).
  - intros r b R. unfold line_total. rewrite tot_map. assert (r = -1 \/ r = 0 \/ r = 1) as [-> |[-> | ->]] by lia.
    + rewrite (tot_ext _ (fun v => (if py (v_pt v) =? -1 * px (v_pt v) + b then if Z.even b then v_down v else 0 else 0) + (if py (v_pt v) =? -1 * px (v_pt v) + (b - 1) then if Z.even b then v_down v else 0 else 0))).
      * rewrite tot_add. destruct (Z.even b); [|rewrite !tot_zero; [reflexivity|intros v _; destruct (_ =? _); reflexivity|intros v _; destruct (_ =? _); reflexivity]].
        pose proof (B2 (-1) b R) as X1. pose proof (B2 (-1) (b - 1) R) as X2. unfold line_total, slope_count in X1, X2. cbn [Z.eqb Pos.eqb] in X1, X2. lia.
      * intros v _. unfold slope_count. cbn [Z.eqb Pos.eqb]. destruct (C v) as [-> _]. rewrite snap_down. destruct (Z.even b); repeat match goal with |- context [?p =? ?q] => destruct (p =? q) end; reflexivity.
    + refine (eq_trans _ (B2 0 b R)). unfold line_total. apply tot_ext. intros v _. unfold slope_count. cbn [Z.eqb Pos.eqb]. destruct (C v) as [_ [-> _]]. apply snap_flat.
    + rewrite (tot_ext _ (fun v => (if py (v_pt v) =? 1 * px (v_pt v) + b then if Z.even b then v_up v else 0 else 0) + (if py (v_pt v) =? 1 * px (v_pt v) + (b + 1) then if Z.even b then v_up v else 0 else 0))).
      * rewrite tot_add. destruct (Z.even b); [|rewrite !tot_zero; [reflexivity|intros v _; destruct (_ =? _); reflexivity|intros v _; destruct (_ =? _); reflexivity]].
        pose proof (B2 1 b R) as X1. pose proof (B2 1 (b + 1) R) as X2. unfold line_total, slope_count in X1, X2. cbn [Z.eqb Pos.eqb] in X1, X2. lia.
      * intros v _. unfold slope_count. cbn [Z.eqb Pos.eqb]. destruct (C v) as [_ [_ [-> _]]]. rewrite snap_up. destruct (Z.even b); repeat match goal with |- context [?p =? ?q] => destruct (p =? q) end; reflexivity.
  - intros x. refine (eq_trans _ (B3 x)). unfold column_total. rewrite tot_map. apply tot_ext. intros v I. destruct (C v) as [_ [_ [_ ->]]]. apply snap_vert. rewrite Forall_forall in S. exact (S v I).
Qed.
