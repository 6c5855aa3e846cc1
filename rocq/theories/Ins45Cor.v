(* The insertion into sets of 45-degree polygons: polygons, rectangles, sets. *)
From Verif Require Import Base Units Outcome Scan90Spec Poly90Spec Poly90Model Poly90Proofs Poly90Vertices GeoSpec PolySpec PolyModel PolyArea Set90Spec ArbSpec ArbOrder ArbSums ArbSetModel ArbSetProofs Ins45Spec Ins45Model Ins45Proofs.
From Coq Require Import Reals Lra.

Lemma pair_balanced high p1 p2 p3 : balanced (half_edge_pair high p1 p2 p3).
Proof.
  unfold balanced, half_edge_pair, characterize. destruct (px p1 =? px p2), (py p1 =? py p2), (px p1 <? px p2), (py p1 <? py p2), (px p2 =? px p3), (py p2 =? py p3), (px p2 <? px p3), (py p2 <? py p3), high; reflexivity.
Qed.
Lemma is_45_false v : is_45 v = false -> axis_vertex v.
Proof. unfold is_45, axis_vertex. lia. Qed.
Definition svalid (s : set45) : Prop := valid45 (s_data s) (s_manhattan s).
Definition grows (s s' : set45) : Prop := (exists new, s_data s' = s_data s ++ new) /\ (svalid s -> svalid s').
Lemma grows_refl s : grows s s.
Proof. split; [exists []; rewrite app_nil_r; reflexivity|auto]. Qed.
Lemma grows_trans a b c : grows a b -> grows b c -> grows a c.
Proof. intros [[n E] A] [[m F] B]. split; [exists (n ++ m); rewrite F, E, app_assoc; reflexivity|auto]. Qed.
Lemma push_grows high p1 p2 p3 s : grows s (push_pair high p1 p2 p3 s).
Proof.
  split; [eexists; reflexivity|]. unfold svalid, valid45, push_pair. cbn [s_data s_manhattan]. intros [A B]. split.
  - apply Forall_app. split; [exact A|]. constructor; [apply pair_balanced|constructor].
  - destruct (is_45 _) eqn:I; [discriminate|]. intros M. apply Forall_app. split; [apply B, M|]. constructor; [apply is_45_false, I|constructor].
Qed.
Lemma loop_grows high l : forall pp p s pp' p' s', vseq45_loop high pp p l s = (pp', p', s') -> grows s s'.
Proof.
  induction l as [|q l IH]; intros pp p s pp' p' s' H; cbn [vseq45_loop] in H; [assert (s' = s) by congruence; subst; apply grows_refl|]. destruct (pt_eqb q p); [apply (IH _ _ _ _ _ _ H)|]. apply (grows_trans _ _ _ (push_grows _ _ _ _ _) (IH _ _ _ _ _ _ H)).
Qed.
Lemma vseq45_grows ccw hole pts s : grows s (insert_vseq45 ccw hole pts s).
Proof.
  destruct pts as [|f l]; cbn [insert_vseq45]; [apply grows_refl|]. destruct (next_differing f l) as [[q l']|]; [|apply grows_refl]. destruct (vseq45_loop _ f q l' s) as [[pp p] s'] eqn:V. apply loop_grows in V. destruct (negb (pt_eqb p f)).
  - apply (grows_trans _ _ _ V). eapply grows_trans; apply push_grows.
  - apply (grows_trans _ _ _ V). apply push_grows.
Qed.
Lemma ring45_ok w hole pts s s' : insert_ring45 w hole pts s = Ok s' -> cycle_45 pts -> grows s s' /\ forall x y, sdepth s' x y = sdepth s x y + hole_sign hole * oriented_r pts x y.
Proof.
  intros H C. unfold insert_ring45 in H. destruct (points_ccw_d w pts) as [ccw| |] eqn:E; cbn [obind] in H; try discriminate. assert (Q : s' = insert_vseq45 ccw hole pts s) by congruence. subst s'. split; [apply vseq45_grows|].
  intros x y. rewrite vseq45_depth by exact C. unfold oriented_r, hole_sign, high_of, dirof.
  assert (W : ccw = (0 <? shoelace2 pts)).
  { unfold points_ccw_d in E. destruct (points_area_d w pts) as [v| |] eqn:F; cbn [obind] in E; try discriminate. rewrite (points_area_d_eq _ _ _ F) in E. assert (ccw = (- shoelace2 pts <? 0)) by congruence. subst ccw. apply ArbSums.bool_eq. rewrite !Z.ltb_lt. lia. }
  rewrite <- W. destruct ccw, hole; cbn [negb]; lia.
Qed.
Lemma rings45_ok w hole hs : forall s s', insert_rings45 w hole hs s = Ok s' -> Forall cycle_45 hs -> grows s s' /\ forall x y, sdepth s' x y = sdepth s x y + hole_sign hole * zsum (fun h => oriented_r h x y) hs.
Proof.
  induction hs as [|h hs IH]; intros s s' H F; cbn [insert_rings45] in H.
  - assert (s' = s) by congruence. subst. split; [apply grows_refl|]. intros x y. unfold zsum. cbn [fold_right]. lia.
  - destruct (insert_ring45 w hole h s) as [t| |] eqn:E; cbn [obind] in H; try discriminate. inversion F as [|? ? F1 F2]; subst. destruct (ring45_ok _ _ _ _ _ E F1) as [G1 D1]. destruct (IH _ _ H F2) as [G2 D2]. split; [apply (grows_trans _ _ _ G1 G2)|]. intros x y. rewrite D2, D1. unfold zsum. cbn [fold_right]. lia.
Qed.
Lemma polygon45_ok w hole g s s' : insert_polygon45 w hole g s = Ok s' -> gpoly_45 g -> grows s s' /\ forall x y, sdepth s' x y = sdepth s x y + hole_sign hole * poly_r (g_outer g) (g_holes g) x y.
Proof.
  intros H [C D]. unfold insert_polygon45 in H. destruct (insert_ring45 w hole (g_outer g) s) as [t| |] eqn:E; cbn [obind] in H; try discriminate. destruct (ring45_ok _ _ _ _ _ E C) as [G1 D1]. destruct (rings45_ok _ _ _ _ _ H D) as [G2 D2]. split; [apply (grows_trans _ _ _ G1 G2)|]. intros x y. rewrite D2, D1. unfold poly_r, hole_sign. destruct hole; cbn [negb]; lia.
Qed.
Lemma polygon45_defined w B hole g s : 0 <= B -> (forall r, In r (rings g) -> Forall (pt_fits B) r /\ Z.of_nat (length r) * (8 * (B * B)) <= 2 ^ w) -> exists s', insert_polygon45 w hole g s = Ok s'.
Proof.
  intros HB F. assert (R1 : forall hole r s, Forall (pt_fits B) r -> Z.of_nat (length r) * (8 * (B * B)) <= 2 ^ w -> exists a, insert_ring45 w hole r s = Ok a).
  { intros h r t F1 L. unfold insert_ring45, points_ccw_d. destruct (points_area_d_fits w B r HB F1 L) as [v ->]. cbn [obind]. eexists. reflexivity. }
  assert (R2 : forall hole hs s, (forall r, In r hs -> Forall (pt_fits B) r /\ Z.of_nat (length r) * (8 * (B * B)) <= 2 ^ w) -> exists a, insert_rings45 w hole hs s = Ok a).
  { intros h. induction hs as [|r hs IH]; intros t K; [eexists; reflexivity|]. cbn [insert_rings45]. destruct (K r (or_introl eq_refl)) as [K1 K2]. destruct (R1 h r t K1 K2) as [a ->]. cbn [obind]. apply IH. intros q Q. apply K. right. exact Q. }
  unfold insert_polygon45. destruct (F (g_outer g) (or_introl eq_refl)) as [K1 K2]. destruct (R1 hole _ s K1 K2) as [a ->]. cbn [obind]. apply R2. intros r R. apply F. right. exact R.
Qed.

(* ---------- rectangles ---------- *)
Lemma rect45_grows hole r s : rect_ok r -> grows s (insert_rect45 hole r s).
Proof.
  intros R. split; [eexists; reflexivity|]. unfold svalid, valid45, insert_rect45. cbn [s_data s_manhattan]. intros [A B]. split.
  - apply Forall_app. split; [exact A|]. repeat constructor; apply pair_balanced.
  - intros M. apply Forall_app. split; [apply B, M|]. destruct R as [R1 R2].
    repeat constructor; unfold half_edge_pair, characterize; cbn [px py]; rewrite ?Z.eqb_refl; repeat match goal with |- context [if ?c then _ else _] => destruct c eqn:? end; cbn; try lia; reflexivity.
Qed.
Lemma rect45_depth hole r s x y : rect_ok r -> sdepth (insert_rect45 hole r s) x y = sdepth s x y + hole_sign hole * (if in_rect_r r x y then 1 else 0).
Proof.
  intros [R1 R2]. unfold sdepth, insert_rect45, depth45. cbn [s_data]. rewrite tot_app. f_equal. cbn [tot]. rewrite !pair_depth.
  set (ll := mk_pt (xl r) (yl r)). set (lr := mk_pt (xh r) (yl r)). set (ul := mk_pt (xl r) (yh r)). set (ur := mk_pt (xh r) (yh r)).
  pose proof (hle_edge ll lr x y (or_introl (or_intror eq_refl))) as E1. pose proof (hle_edge lr ur x y (or_introl (or_introl eq_refl))) as E2. pose proof (hle_edge ur ul x y (or_introl (or_intror eq_refl))) as E3. pose proof (hle_edge ul ll x y (or_introl (or_introl eq_refl))) as E4.
  rewrite (crossing_vert lr ur) in E2 by reflexivity. rewrite (crossing_vert ul ll) in E4 by reflexivity.
  assert (C1 : crossing_r x y (ll, lr) - - crossing_r x y (ur, ul) = if in_rect_r r x y then 1 else 0).
  { destruct (Z.eq_dec (xl r) (xh r)) as [Q|Q].
    - rewrite !crossing_vert by (unfold ll, lr, ul, ur; cbn [px]; lia). unfold in_rect_r. rewrite Q. assert (rleb (IZR (xh r)) x && rltb x (IZR (xh r)) = false) as -> by (apply not_true_iff_false; rewrite andb_true_iff, rleb_iff, rltb_iff; lra). reflexivity.
    - rewrite (crossing_anti ur ul) by (unfold ur, ul; cbn [px]; lia). assert (L : (IZR (xl r) < IZR (xh r))%R) by (apply IZR_lt; lia). assert (LY : (IZR (yl r) <= IZR (yh r))%R) by (apply IZR_le; lia).
      unfold crossing_r. rewrite (edge_height_45 ll lr 0) by (unfold ll, lr; cbn [px py]; lia). rewrite (edge_height_45 ul ur 0) by (unfold ul, ur; cbn [px py]; lia). unfold in_rect_r, ll, lr, ul, ur. cbn [px py].
      assert (rleb (IZR (xh r)) x && rltb x (IZR (xl r)) = false) as -> by (apply not_true_iff_false; rewrite andb_true_iff, rleb_iff, rltb_iff; lra). cbn [andb].
      replace (IZR (yl r) + 0 * (x - IZR (xl r)))%R with (IZR (yl r)) by ring. replace (IZR (yh r) + 0 * (x - IZR (xl r)))%R with (IZR (yh r)) by ring.
      assert (T : rleb y (IZR (yh r)) = negb (rltb (IZR (yh r)) y)) by (unfold rltb, rleb; destruct (Rlt_dec _ _), (Rle_dec _ _); try reflexivity; exfalso; lra). rewrite T.
      assert (U : rltb (IZR (yh r)) y = true -> rltb (IZR (yl r)) y = true) by (rewrite !rltb_iff; lra).
      destruct (rleb (IZR (xl r)) x), (rltb x (IZR (xh r))), (rltb (IZR (yl r)) y), (rltb (IZR (yh r)) y); cbn [andb negb]; try lia; specialize (U eq_refl); discriminate. }
  rewrite <- C1. unfold hole_sign, dirof. destruct hole; cbn [negb]; lia.
Qed.

(* ---------- sets ---------- *)
Lemma invert_depth v x y : v45_depth (invert v) x y = - v45_depth v x y.
Proof. unfold v45_depth, invert. cbn [v_pt v_down v_flat v_up]. destruct (rleb _ _); [|reflexivity]. destruct (line_below (-1) _ _ _), (line_below 0 _ _ _), (line_below 1 _ _ _); lia. Qed.
Lemma set45_depth hole t s x y : sdepth (insert_set45 hole t s) x y = sdepth s x y + hole_sign hole * sdepth t x y.
Proof.
  unfold sdepth, insert_set45, depth45, hole_sign. cbn [s_data]. rewrite tot_app. destruct hole; [|lia]. 
  assert (E : forall l, tot (fun v => v45_depth v x y) (map invert l) = - tot (fun v => v45_depth v x y) l) by (induction l as [|a l IH]; cbn [tot map]; [reflexivity|rewrite IH, invert_depth; lia]). rewrite E. lia.
Qed.
Lemma set45_grows hole t s : svalid t -> grows s (insert_set45 hole t s).
Proof.
  intros [A B]. split; [eexists; reflexivity|]. unfold svalid, valid45, insert_set45. cbn [s_data s_manhattan]. intros [C D]. split.
  - apply Forall_app. split; [exact C|]. destruct hole; [|exact A]. apply Forall_map. revert A. apply Forall_impl. intros v. unfold balanced, invert. cbn [v_vert v_down v_flat v_up]. lia.
  - destruct (s_manhattan t) eqn:M; cbn [negb]; [|discriminate]. intros F. apply Forall_app. split; [apply D, F|]. specialize (B eq_refl). destruct hole; [|exact B]. apply Forall_map. revert B. apply Forall_impl. intros v. unfold axis_vertex, invert. cbn [v_vert v_down v_flat v_up]. lia.
Qed.
Lemma rleb_mid a x : rleb (IZR a) (cell_mid x) = (a <=? x).
Proof.
  apply ArbSums.bool_eq. rewrite rleb_iff, Z.leb_le. unfold cell_mid. split; intros H; [|apply IZR_le in H; lra].
  apply Z.lt_succ_r. apply lt_IZR. rewrite succ_IZR. lra.
Qed.
Lemma rltb_mid a x : rltb (IZR a) (cell_mid x) = (a <=? x).
Proof.
  apply ArbSums.bool_eq. rewrite rltb_iff, Z.leb_le. unfold cell_mid. split; intros H; [|apply IZR_le in H; lra].
  apply Z.lt_succ_r. apply lt_IZR. rewrite succ_IZR. lra.
Qed.
Lemma axis_depth p a b x y : v45_depth (mk_v45 p 0 a 0 b) (cell_mid x) (cell_mid y) = if (px p <=? x) && (py p <=? y) then a else 0.
Proof.
  unfold v45_depth, line_below. cbn [v_pt v_down v_flat v_up]. rewrite rleb_mid. replace (IZR (py p) + 0 * (cell_mid x - IZR (px p)))%R with (IZR (py p)) by ring. rewrite rltb_mid. destruct (px p <=? x), (py p <=? y), (rltb (IZR (py p) + -1 * (cell_mid x - IZR (px p))) (cell_mid y)), (rltb (IZR (py p) + 1 * (cell_mid x - IZR (px p))) (cell_mid y)); cbn [andb]; lia.
Qed.
Lemma set90_depth o t x y : forall s, sdepth (insert_set90 false o t s) (cell_mid x) (cell_mid y) = sdepth s (cell_mid x) (cell_mid y) + wind o t x y.
Proof.
  unfold insert_set90. induction t as [|v t IH]; intros s; cbn [fold_left]; [destruct o; cbn [wind cnt]; lia|]. rewrite IH. unfold sdepth at 1, insert_clean45, depth45. cbn [s_data]. rewrite tot_app. cbn [tot]. unfold vertex_of_90. rewrite axis_depth.
  fold (depth45 (s_data s) (cell_mid x) (cell_mid y)). fold (sdepth s (cell_mid x) (cell_mid y)). destruct o; cbn [wind cnt px py]; [rewrite (andb_comm (vx v <=? y))|]; lia.
Qed.
Lemma set90_grows o t : forall s, grows s (insert_set90 false o t s).
Proof.
  unfold insert_set90. induction t as [|v t IH]; intros s; cbn [fold_left]; [apply grows_refl|]. eapply grows_trans; [|apply IH]. split; [eexists; reflexivity|]. unfold svalid, valid45, insert_clean45. cbn [s_data s_manhattan]. intros [A B]. split.
  - apply Forall_app. split; [exact A|]. constructor; [|constructor]. unfold balanced, vertex_of_90. cbn [v_vert v_down v_flat v_up]. lia.
  - unfold is_45, vertex_of_90. cbn [v_down v_up Z.eqb negb orb]. intros M. apply Forall_app. split; [apply B, M|]. constructor; [|constructor]. split; reflexivity.
Qed.
Lemma manhattan_cnt s x y : svalid s -> s_manhattan s = true -> cnt (manhattan_data s) x y = sdepth s (cell_mid x) (cell_mid y).
Proof.
  intros [A B] M. specialize (B M). clear M. unfold manhattan_data, sdepth. induction (s_data s) as [|v l IH]; [reflexivity|]. inversion A as [|? ? A1 A2]; subst. inversion B as [|? ? B1 B2]; subst. unfold depth45. cbn [tot]. fold (depth45 l (cell_mid x) (cell_mid y)). rewrite <- (IH A2 B2).
  destruct v as [p a b c d]. unfold axis_vertex, balanced in *. cbn [v_pt v_down v_flat v_up v_vert] in *. destruct B1 as [-> ->]. rewrite axis_depth. cbn [filter v_vert]. destruct (negb (d =? 0)) eqn:Q; cbn [map cnt vx vy vc v_pt v_vert fst snd].
  - destruct ((px p <=? x) && (py p <=? y)); lia.
  - destruct ((px p <=? x) && (py p <=? y)); lia.
Qed.
