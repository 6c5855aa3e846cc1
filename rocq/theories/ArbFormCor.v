(* What the rings of the polygons wind around. *)
From Verif Require Import Base Units Outcome Poly90Spec Poly90Proofs GeoSpec RectModel PolySpec SnapSpec ArbSpec ArbOrder ArbSums ArbBool ArbModel ArbResult ArbSetModel ArbSetProofs ArbSetCor ArbFormSpec ArbFormModel ArbFormChains ArbFormGeo ArbFormMain.
From Coq Require Import Reals Lra Sorting.Permutation.

Lemma crossing_loop x y p : crossing_r x y (p, p) = 0.
Proof. unfold crossing_r. assert (rleb (IZR (px p)) x && rltb x (IZR (px p)) = false) as -> by (apply not_true_iff_false; rewrite andb_true_iff, rleb_iff, rltb_iff; lra). reflexivity. Qed.
Lemma crossing_edge x y e c : ordered e -> c = 1 \/ c = -1 -> crossing_r x y (directed (e, c)) = if spans_r e x && rltb (height e x) y then c else 0.
Proof.
  intros O C. apply ordered_iff in O. unfold directed, crossing_r, spans_r. cbn [fst snd]. destruct e as [a b]. cbn [s_low s_high] in *. destruct (vertical_edge (mk_seg a b)) eqn:V.
  - apply vertical_edge_iff in V. cbn [s_low s_high] in V. assert (N : rleb (IZR (px a)) x && rltb x (IZR (px b)) = false) by (apply not_true_iff_false; rewrite andb_true_iff, rleb_iff, rltb_iff, V; lra). assert (M : rleb (IZR (px b)) x && rltb x (IZR (px a)) = false) by (rewrite V in *; exact N).
    destruct (xorb true (c =? 1)); rewrite M, N; reflexivity.
  - assert (L : px a < px b) by (apply not_true_iff_false in V; rewrite vertical_edge_iff in V; cbn [s_low s_high] in V; lia). apply IZR_lt in L. assert (M : rleb (IZR (px b)) x && rltb x (IZR (px a)) = false) by (apply not_true_iff_false; rewrite andb_true_iff, rleb_iff, rltb_iff; lra).
    destruct C as [-> | ->]; cbn [xorb Z.eqb Pos.eqb]; rewrite M; cbn [andb]; destruct (rleb (IZR (px a)) x && rltb x (IZR (px b))), (rltb (height (mk_seg a b) x) y); reflexivity.
Qed.
Lemma zsum_perm {A : Type} (f : A -> Z) a b : Permutation a b -> zsum f a = zsum f b.
Proof. intros P. unfold zsum. induction P; cbn [fold_right]; lia. Qed.
Lemma crossing_sum r x y : good_edges r -> (forall e c, In (e, c) r -> c = 1 \/ c = -1) -> zsum (crossing_r x y) (map directed r) = depth_below (as_set r) 0 x y.
Proof.
  intros G O. induction r as [|[e c] r IH]; [reflexivity|]. assert (I := IH (fun f F => G f (or_intror F)) (fun f k F => O f k (or_intror F))). cbn [map]. rewrite zsum_cons. unfold depth_below, as_set in *. cbn [map tot fst snd]. rewrite I.
  rewrite (crossing_edge x y e c); [reflexivity|apply (G (e, c)); left; reflexivity|apply (O e c); left; reflexivity].
Qed.
Lemma combine_path p l : combine (p :: l) (l ++ [p]) = path_edges (p :: l) ++ [(last l p, p)].
Proof.
  enough (K : forall q, combine (q :: l) (l ++ [p]) = path_edges (q :: l) ++ [(last l q, p)]) by apply K.
  induction l as [|a l IH]; intros q; [reflexivity|]. cbn [app]. change (combine (q :: a :: l) (a :: l ++ [p])) with ((q, a) :: combine (a :: l) (l ++ [p])). rewrite IH. change (path_edges (q :: a :: l)) with ((q, a) :: path_edges (a :: l)). cbn [app]. f_equal. f_equal. f_equal. f_equal.
  clear. revert q. induction l as [|b l IH]; intros q; [reflexivity|]. cbn [last] in *. destruct l; [reflexivity|apply IH].
Qed.
Lemma ring_winding l x y : closed_ring l -> winding_r l x y = zsum (crossing_r x y) (path_edges l).
Proof.
  intros [p [m ->]]. unfold winding_r, cyc_edges. rewrite combine_path, zsum_app, zsum_cons. rewrite last_last, crossing_loop. unfold zsum at 2. cbn [fold_right]. lia.
Qed.
Lemma windings gs x y : (forall g, In g gs -> rings_ok (rings g)) -> rings_winding gs x y = zsum (crossing_r x y) (ring_steps gs).
Proof.
  intros H. unfold rings_winding, ring_steps. assert (K : forall l, In l (flat_map rings gs) -> closed_ring l) by (intros l L; apply in_flat_map in L as [g [G L]]; apply (H g G), L). clear H.
  induction (flat_map rings gs) as [|l ls IH]; [reflexivity|]. cbn [flat_map]. rewrite zsum_cons, zsum_app, <- IH by (intros m M; apply K; right; exact M). rewrite (ring_winding l x y (K l (or_introl eq_refl))). reflexivity.
Qed.

(* a set that has been cleaned *)
Lemma kept_b01 op f : b01 (kept op f).
Proof. unfold b01, kept. destruct (keeps op _ _); auto. Qed.
Lemma clean_depth a r : good_edges a -> closed (as_set a) -> set_clean a = Ok r -> forall x y, b01 (depth_below (as_set r) 0 x y) /\ b01 (depth_below_left (as_set r) 0 x y).
Proof.
  intros G C H x y. destruct a as [|e0 a0] eqn:EA; [assert (r = []) as -> by (unfold set_clean in H; cbn in H; congruence); split; left; reflexivity|]. rewrite <- EA in *. assert (NB : both a [] <> []) by (rewrite EA; discriminate).
  destruct (exec_core OpOr a [] G (fun e (K : In e []) => match K with end) C (fun k v => eq_refl) NB) as [out [r' [_ [E' [_ [_ [_ D]]]]]]]. unfold set_clean in H. assert (K : Ok r' = Ok r) by (etransitivity; [symmetry; exact E'|exact H]). assert (r' = r) as -> by congruence. destruct (D x y) as [D1 [_ D3]]. rewrite D1, D3. split; apply kept_b01.
Qed.
