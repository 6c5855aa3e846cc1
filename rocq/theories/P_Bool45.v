(* Boolean operations on sets of 45-degree polygons. C78 *)
From Coq Require Import Reals Lra Sorting.Sorted Permutation.
From Verif Require Import Base Units Outcome Scan90Spec Poly90Spec Poly90Model GeoSpec PolySpec Set90Spec ArbSpec ArbOrder Ins45Spec Ins45Model Scan45Model Scan45Base Scan45Step Bool45Spec Bool45Model Bool45Proofs Bool45Insert.
Local Open Scope Z_scope.

(* ---------- C78 ---------- *)
(* The sweep takes two sets, their vertices in any order by points. It never searches in a
   set that is out of order. If it does not throw, the result covers exactly what the
   operation says, once and not more, everywhere in the plane; its vertices are in order,
   one for each point, they are the boundary of bounded regions, so that it can be used
   again, and the flag says whether there are diagonal edges. *)
Theorem C78_boolean : forall op a b sa sb, boundary45 a -> boundary45 b -> Permutation a sa -> Permutation b sb -> in_order sa -> in_order sb ->
  match bool45 (op_code op) sa sb with
  | Fine (r, flag) =>
      (forall x y, depth45 r x y = if op_covers op (covered45 a x y) (covered45 b x y) then 1 else 0) /\
      boundary45 r /\ strictly_in_order r /\ (flag = true <-> rectilinear45 r)
  | Throw => True
  | Bad => False
  end.
Proof.
  intros op a b sa sb A B PA PB SA SB. assert (K : logic2 (op_code op) cz = false) by (destruct op; reflexivity).
  pose proof (run_good _ sa sb K SA SB (boundary_perm _ _ PA A) (boundary_perm _ _ PB B)) as H. unfold bool45. destruct (rbind _ _) as [[r flag]| |]; [|exact I|exact H]. cbn [good fst snd] in H. destruct H as [H1 H2]. split; [|exact H2].
  intros x y. rewrite H1, <- (depth_perm _ _ x y PA), <- (depth_perm _ _ x y PB). unfold keepz, covered45. destruct op; cbn [op_code logic2 Z.eqb Pos.eqb fst snd op_covers]; reflexivity.
Qed.
Print Assumptions C78_boolean.
(* The same for one set: clean() keeps what is covered at all, self_intersect what is
   covered more than once, self_xor what is covered an odd number of times. *)
Theorem C78_self : forall op a sa, boundary45 a -> Permutation a sa -> in_order sa ->
  match unary45 (self_code op) sa with
  | Fine (r, flag) =>
      (forall x y, depth45 r x y = if self_covers op (depth45 a x y) then 1 else 0) /\
      boundary45 r /\ strictly_in_order r /\ (flag = true <-> rectilinear45 r)
  | Throw => True
  | Bad => False
  end.
Proof.
  intros op a sa A PA SA. assert (K : logic1 (self_code op) cz = false) by (destruct op; reflexivity).
  assert (N : boundary45 []) by (split; [constructor|split; reflexivity]).
  pose proof (run_good _ sa [] K SA (SSorted_nil _) (boundary_perm _ _ PA A) N) as H. unfold unary45. rewrite <- merge_nil. destruct (rbind _ _) as [[r flag]| |]; [|exact I|exact H]. cbn [good fst snd] in H. destruct H as [H1 H2]. split; [|exact H2].
  intros x y. rewrite H1, <- (depth_perm _ _ x y PA). unfold keepz. destruct op; cbn [self_code logic1 Z.eqb Pos.eqb fst snd self_covers]; try reflexivity.
  rewrite Zodd_mod. assert (E : Z.rem (depth45 a x y) 2 =? 0 = (depth45 a x y mod 2 =? 0)) by (apply ArbSums.bool_eq; rewrite !Z.eqb_eq, Z.rem_divide, Z.mod_divide by lia; reflexivity). rewrite E.
  unfold Zeq_bool. pose proof (Z.mod_pos_bound (depth45 a x y) 2). assert (depth45 a x y mod 2 = 0 \/ depth45 a x y mod 2 = 1) as [-> | ->] by lia; reflexivity.
Qed.
Print Assumptions C78_self.

(* Sets that are built by inserting polygons, rectangles and other sets, also as holes, are
   such boundaries. *)
Theorem C78_inserted : forall s, boundary45 (s_data s) -> (s_manhattan s = true -> rectilinear45 (s_data s)) ->
  (forall w hole g s', insert_polygon45 w hole g s = Ok s' -> gpoly_45 g -> boundary45 (s_data s') /\ (s_manhattan s' = true -> rectilinear45 (s_data s'))) /\
  (forall hole r, rect_ok r -> boundary45 (s_data (insert_rect45 hole r s)) /\ (s_manhattan (insert_rect45 hole r s) = true -> rectilinear45 (s_data (insert_rect45 hole r s)))) /\
  (forall hole t, boundary45 (s_data t) -> (s_manhattan t = true -> rectilinear45 (s_data t)) -> boundary45 (s_data (insert_set45 hole t s)) /\ (s_manhattan (insert_set45 hole t s) = true -> rectilinear45 (s_data (insert_set45 hole t s)))).
Proof.
  intros s B V. assert (S : bvalid s) by (split; assumption). split; [|split].
  - intros w hole g s' H G. exact (polygon45_bvalid w hole g s s' H G S).
  - intros hole r R. exact (rect45_bvalid hole r s R S).
  - intros hole t T1 T2. exact (set45_bvalid hole t s (conj T1 T2) S).
Qed.
Print Assumptions C78_inserted.

(* two diamonds that cross on the grid, an octagon with a hole, and two diamonds that cross
   beside the grid: there the sweep throws *)
Definition diamond (x : Z) : list v45 := s_data (insert_vseq45 true false [mk_pt x (-4); mk_pt (x + 4) 0; mk_pt x 4; mk_pt (x - 4) 0] empty45).
Fixpoint put_v (v : v45) (l : list v45) : list v45 :=
  match l with [] => [v] | w :: l' => if pt_ltb (v_pt v) (v_pt w) then v :: l else w :: put_v v l' end.
Definition sort_v (l : list v45) : list v45 := fold_right put_v [] l.
Lemma put_perm v l : Permutation (v :: l) (put_v v l).
Proof. induction l as [|w l IH]; cbn [put_v]; [reflexivity|]. destruct (pt_ltb _ _); [reflexivity|]. rewrite perm_swap. apply perm_skip, IH. Qed.
Lemma sort_perm l : Permutation l (sort_v l).
Proof. induction l as [|v l IH]; [reflexivity|]. cbn [sort_v fold_right]. rewrite <- put_perm. apply perm_skip, IH. Qed.
Lemma put_order v l : in_order l -> in_order (put_v v l).
Proof.
  unfold in_order. induction 1 as [|w l S IH F]; cbn [put_v]; [constructor; constructor|]. destruct (pt_ltb (v_pt v) (v_pt w)) eqn:L.
  - apply pt_ltb_iff in L. constructor; [constructor; assumption|]. constructor; [left; exact L|]. rewrite Forall_forall in *. intros u U. eapply pt_le_trans; [left; exact L|apply F, U].
  - constructor; [exact IH|]. rewrite Forall_forall in *. intros u U. apply (Permutation_in u (Permutation_sym (put_perm v l))) in U as [<-|U]; [|apply F, U]. destruct (pt_ltb (v_pt w) (v_pt v)) eqn:M; [left; apply pt_ltb_iff, M|right; apply pt_total; assumption].
Qed.
Lemma sort_order l : in_order (sort_v l).
Proof. induction l; [constructor|apply put_order; assumption]. Qed.
Lemma diamond_boundary x : boundary45 (diamond x).
Proof.
  assert (C : cycle_45 [mk_pt x (-4); mk_pt (x + 4) 0; mk_pt x 4; mk_pt (x - 4) 0]) by (unfold cycle_45, cyc_edges; cbn [combine app]; repeat (apply Forall_cons || apply Forall_nil); unfold edge_45, axis_edge; cbn [px py fst snd]; lia).
  apply (bvalid_step empty45 (insert_vseq45 true false _ empty45)); [apply Ins45Cor.vseq45_grows| |exact bvalid_empty]. intros h hc. apply (vseq45_lin h hc). exact C.
Qed.
Example C78_demo :
  bool45 1 (sort_v (diamond 0)) (sort_v (diamond 4)) = Fine ([mk_v45 (mk_pt 0 0) 1 0 (-1) 0; mk_v45 (mk_pt 2 (-2)) (-1) 0 1 0; mk_v45 (mk_pt 2 2) (-1) 0 1 0; mk_v45 (mk_pt 4 0) 1 0 (-1) 0], false) /\
  (exists r, bool45 0 (sort_v (diamond 0)) (sort_v (diamond 4)) = Fine (r, false) /\ length r = 8%nat) /\
  (exists r, bool45 2 (sort_v (s_data (insert_rect45 false (mk_rect (-9) 9 (-9) 9) empty45))) (sort_v (diamond 4)) = Fine (r, false) /\ length r = 8%nat) /\
  (exists r, unary45 3 (sort_v (diamond 0 ++ diamond 4)) = Fine (r, false)) /\
  bool45 1 (sort_v (diamond 0)) (sort_v (diamond 3)) = Throw /\
  boundary45 (diamond 0) /\ Permutation (diamond 0) (sort_v (diamond 0)) /\ in_order (sort_v (diamond 0)).
Proof.
  split; [vm_compute; reflexivity|]. split; [eexists; split; [vm_compute; reflexivity|reflexivity]|]. split; [eexists; split; [vm_compute; reflexivity|reflexivity]|]. split; [eexists; vm_compute; reflexivity|]. split; [vm_compute; reflexivity|].
  split; [apply diamond_boundary|]. split; [apply sort_perm|apply sort_order].
Qed.
