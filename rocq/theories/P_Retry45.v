(* What boolean operations on sets of 45-degree polygons do when edges cross beside the grid. C82 *)
From Coq Require Import Reals Lra Sorting.Sorted Permutation.
From Verif Require Import Base Units Outcome Scan90Spec Poly90Spec Poly90Model GeoSpec PolySpec Set90Spec ArbSpec ArbSums ArbOrder Ins45Spec Ins45Model Ins45Cor Scan45Model Scan45Base Bool45Spec Bool45Model Bool45Proofs Bool45Insert Snap45Spec Snap45Proofs Adapt45Spec Adapt45Model Adapt45Eq Retry45Spec Retry45Model Retry45Proofs P_Bool45 P_Snap45.
From Coq Require Import Lra.
Local Open Scope Z_scope.

(* ---------- C82 ---------- *)
(* The squares are exactly those around the corners of the rings with an odd x: to be added
   if the ring turns right there, or not at all, and to be removed if it turns left. *)
Theorem C82_squares : forall rings, Forall closed_ring rings ->
  fst (error_rects rings) = map (fun c => box (middle c)) (filter (fun c => negb (turns_left c)) (side_corners rings)) /\
  snd (error_rects rings) = map (fun c => box (middle c)) (filter turns_left (side_corners rings)).
Proof.
  intros rings C. rewrite (rects_split rings C). unfold split_boxes, side_corners. cbn [fst snd].
  assert (F : forall (f g h : point * point * point -> bool) l, (forall c, h c = f c && g c) -> filter h l = filter f (filter g l)).
  { intros f g h l E. induction l as [|c l IH]; [reflexivity|]. cbn [filter]. rewrite E, IH. destruct (g c); cbn [filter]; [rewrite andb_true_r; destruct (f c); reflexivity|rewrite andb_false_r; reflexivity]. }
  split; f_equal; apply F; intros c; unfold side; destruct (turns_left c); reflexivity.
Qed.
Print Assumptions C82_squares.

(* is (x, y) in one of the squares, in the original coordinates *)
Definition in_square (cs : list (point * point * point)) (x y : R) : bool := existsb (fun c => in_rect_r (box (middle c)) (2 * x) (2 * y)) cs.
Definition sorter (srt : list v45 -> list v45) : Prop := forall l, Permutation l (srt l) /\ in_order (srt l).
(* r is the doubled result, out what the retry gives, want what should be covered *)
Definition retry_result (form : list v45 -> list (list point)) (want : R -> R -> bool) (r : list v45) (flag : bool) (out : res (list v45 * bool * list v45)) : Prop :=
  exists d e, out = Fine (d, flag, e) /\
    (flag = true \/ rings_fit r (form r) ->
      boundary45 d /\ boundary45 e /\ strictly_in_order (filter (fun v => negb (no_counts v)) d) /\
      let cs := if flag then [] else side_corners (form r) in
      forall x y,
        covered45 e x y = in_square cs x y /\
        depth45 d x y = if in_square (filter (fun c => negb (turns_left c)) cs) x y then 1 else if in_square (filter turns_left cs) x y then 0 else if want x y then 1 else 0).

Lemma halve_boundary l : Forall (fun v => has_counts v -> even_vertex v) l -> boundary45 l -> boundary45 (map halve l).
Proof.
  intros F [B1 [B2 B3]]. rewrite Forall_forall in F, B1.
  assert (E : forall v, In v l -> (v_down v = 0 /\ v_flat v = 0 /\ v_up v = 0 /\ v_vert v = 0) \/ exists i j, v_pt v = mk_pt (2 * i) (2 * j) /\ v_pt (halve v) = mk_pt i j).
  { intros v V. pose proof (B1 v V) as B. unfold balanced in B. destruct (has_counts_dec v) as [C|C]; [|left; unfold has_counts in C; lia]. right. destruct (F v V C) as [E1 E2]. apply even_ex in E1 as [i E1], E2 as [j E2]. exists i, j. unfold halve. cbn [v_pt]. rewrite E1, E2. split; [destruct (v_pt v) as [c1 c2]; cbn [px py] in *; congruence|]. f_equal; symmetry; apply Z.div_unique with 1; lia. }
  split; [|split].
  - apply Forall_forall. intros w W. apply in_map_iff in W as [v [<- V]]. exact (B1 v V).
  - intros r b R. refine (eq_trans _ (B2 r (2 * b) R)). unfold line_total. rewrite tot_map. apply tot_ext. intros v V. destruct (E v V) as [[Z1 [Z2 [Z3 Z4]]]|[i [j [P1 P2]]]].
    + unfold slope_count, halve. cbn [v_down v_flat v_up]. rewrite Z1, Z2, Z3. repeat match goal with |- context [if ?c then _ else _] => destruct c end; reflexivity.
    + rewrite P1, P2. cbn [px py]. replace (2 * j =? r * (2 * i) + 2 * b) with (j =? r * i + b) by (apply ArbSums.bool_eq; rewrite !Z.eqb_eq; lia). reflexivity.
  - intros x. refine (eq_trans _ (B3 (2 * x))). unfold column_total. rewrite tot_map. apply tot_ext. intros v V. destruct (E v V) as [[Z1 [Z2 [Z3 Z4]]]|[i [j [P1 P2]]]].
    + unfold halve. cbn [v_vert]. rewrite Z4. destruct (_ =? x), (_ =? 2 * x); reflexivity.
    + rewrite P1, P2. cbn [px py]. replace (2 * i =? 2 * x) with (i =? x) by (apply ArbSums.bool_eq; rewrite !Z.eqb_eq; lia). reflexivity.
Qed.
Lemma halve_strict l : Forall balanced l -> Forall (fun v => has_counts v -> even_vertex v) l -> strictly_in_order l -> strictly_in_order (filter (fun v => negb (no_counts v)) (map halve l)).
Proof.
  intros B F S. assert (C : filter (fun v => negb (no_counts v)) (map halve l) = map halve (filter nonzero l)) by (clear; induction l as [|v l IH]; [reflexivity|]; cbn [map filter]; rewrite IH; unfold nonzero; change (no_counts (halve v)) with (no_counts v); destruct (no_counts v); reflexivity).
  rewrite C. apply (strict_filter nonzero) in S. assert (E : Forall even_vertex (filter nonzero l)).
  { apply Forall_forall. intros v V. apply filter_In in V as [V N]. rewrite Forall_forall in F, B. apply (F v V). pose proof (B v V) as Bv. unfold balanced in Bv. unfold has_counts. unfold nonzero, no_counts in N. lia. }
  clear C. unfold strictly_in_order in *. induction S as [|v m S IH H]; [constructor|]. inversion E as [|? ? Ev Em]; subst. cbn [map]. constructor; [apply IH, Em|]. rewrite Forall_forall in *. intros w W. apply in_map_iff in W as [u [<- U]]. specialize (H u U). specialize (Em u U).
  rewrite <- (halve_even v Ev), <- (halve_even u Em) in H. unfold pt_lt, scale45 in *. cbn [v_pt px py] in H. lia.
Qed.
Lemma square_num cs x y : in_square cs x y = (0 <? num (map (fun c => box (middle c)) cs) (2 * x) (2 * y)).
Proof.
  induction cs as [|c cs IH]; [reflexivity|]. unfold in_square in *. cbn [existsb map]. rewrite IH. unfold num. cbn [tot]. pose proof (num_nonneg (map (fun c => box (middle c)) cs) (2 * x) (2 * y)) as N. unfold num in N. destruct (in_rect_r _ _ _); cbn [orb]; lia.
Qed.
Lemma square_in cs x y : in_square cs x y = true <-> exists c, In c cs /\ in_rect_r (box (middle c)) (2 * x) (2 * y) = true.
Proof. apply existsb_exists. Qed.
Lemma finish_ok form srt (want : R -> R -> bool) r flag : sorter srt -> boundary45 r -> strictly_in_order r -> (flag = true <-> rectilinear45 r) -> quiet (depth45 r) ->
  (forall x y, depth45 r x y = 0 \/ depth45 r x y = 1) -> (forall x y, depth45 r (2 * x) (2 * y) = if want x y then 1 else 0) ->
  retry_result form want r flag (finish_retry form srt (r, flag)).
Proof.
  intros SRT B S FL Q D01 W. unfold retry_result, finish_retry. cbn [fst snd]. destruct flag.
  - exists (map halve r), []. split; [reflexivity|]. intros _. pose proof (strict_quiet_axis r S Q (proj1 FL eq_refl)) as E. split; [apply halve_boundary; assumption|]. split; [split; [constructor|split; reflexivity]|]. split; [apply halve_strict; [apply B|assumption|assumption]|]. cbv zeta. intros x y. split; [reflexivity|]. cbn [filter]. unfold in_square. cbn [existsb]. rewrite halve_depth by exact E. apply W.
  - destruct (rects_ok (form r)) as [OP ON]. destruct (error_rects (form r)) as [pos neg] eqn:ER. cbn [fst snd] in *.
    set (rep := insert_boxes true neg (insert_boxes false pos r)).
    assert (BR : boundary45 rep) by (apply boxes_boundary; [exact ON|]; apply boxes_boundary; assumption).
    assert (DR : forall x y, depth45 rep x y = depth45 r x y + num pos x y - num neg x y) by (intros x y; unfold rep; rewrite (boxes_depth true neg _ x y ON), (boxes_depth false pos _ x y OP); unfold hole_sign; lia).
    assert (ED : even_diagonals rep).
    { unfold even_diagonals, rep. apply boxes_forall; [|apply boxes_forall; [|exact (strict_quiet_diag r S Q)]]; intros q I; (eapply Forall_impl; [|apply rect_axis; [rewrite Forall_forall in ON, OP; auto]]); cbv beta; intros v [A1 A2] [N|N]; contradiction. }
    destruct (SRT rep) as [SP SO]. destruct (C79_self SelfOr45 rep (srt rep) BR SP SO ED) as [r2 [f2 [U [D2 [B2 [S2 _]]]]]]. change (self_code SelfOr45) with 0 in U. rewrite U. cbn [fst snd].
    eexists _, _. split; [reflexivity|]. intros [K|[CL [OD [COV SAME]]]]; [discriminate|]. cbv zeta.
    destruct (C82_squares (form r) CL) as [EP EN]. rewrite ER in EP, EN. cbn [fst snd] in EP, EN. set (cs := side_corners (form r)) in *.
    assert (IB : forall f, Forall is_box (map (fun c => box (middle c)) (filter f cs))).
    { intros f. apply Forall_forall. intros q I. apply in_map_iff in I as [c [<- I]]. apply filter_In in I as [I _]. exists (middle c). split; [apply OD, I|reflexivity]. }
    assert (DI : forall p, In (box p) pos -> In (box p) neg -> False).
    { intros p IP IN. rewrite EP in IP. rewrite EN in IN. apply in_map_iff in IP as [c [Ec IP]], IN as [c' [Ec' IN]]. apply filter_In in IP as [IP TP], IN as [IN TN].
      assert (M : middle c = middle c') by (rewrite <- Ec' in Ec; unfold box in Ec; injection Ec as X1 _ Y1 _; destruct (middle c) as [c1 c2], (middle c') as [d1 d2]; cbn [px py] in *; f_equal; lia). rewrite (SAME c c' IP IN M) in TP. rewrite TN in TP. discriminate. }
    assert (EV : Forall (fun v => has_counts v -> even_vertex v) r2).
    { apply (even_left r pos neg r2 S D01 Q); [rewrite EP; apply IB|rewrite EN; apply IB| |exact DI|exact S2|].
      - intros v V H O. destruct (COV v V H O) as [c [C1 C2]]. rewrite EP, EN, !in_map_iff. destruct (turns_left c) eqn:T; [right|left]; exists c; (split; [rewrite C2; reflexivity|apply filter_In; split; [exact C1|rewrite T; reflexivity]]).
      - intros x y. rewrite D2, DR. reflexivity. }
    set (ev := insert_boxes false neg (insert_boxes false pos [])).
    assert (EE : Forall (fun v => has_counts v -> even_vertex v) ev).
    { eapply Forall_impl; [|apply (boxes_forall even_vertex); [|apply boxes_forall; [|constructor]]]; [intros v H _; exact H| |]; intros q I; apply rect_even; [assert (F : Forall even_rect neg) by (rewrite EN; apply box_list, IB)|assert (F : Forall even_rect pos) by (rewrite EP; apply box_list, IB)]; rewrite Forall_forall in F; apply F, I. }
    split; [apply halve_boundary; assumption|]. split.
    { apply halve_boundary; [exact EE|]. apply boxes_boundary; [exact ON|]. apply boxes_boundary; [exact OP|]. split; [constructor|split; reflexivity]. }
    split; [apply halve_strict; [apply B2|assumption|assumption]|].
    intros x y.
    assert (NS : 0 <? num pos (2 * x) (2 * y) = in_square (filter (fun c => negb (turns_left c)) cs) x y) by (rewrite square_num, <- EP; reflexivity).
    assert (NL : 0 <? num neg (2 * x) (2 * y) = in_square (filter turns_left cs) x y) by (rewrite square_num, <- EN; reflexivity).
    assert (BOTH : in_square (filter (fun c => negb (turns_left c)) cs) x y = true -> in_square (filter turns_left cs) x y = true -> False).
    { rewrite !square_in. intros [c [C1 C2]] [c' [C1' C2']]. apply filter_In in C1 as [C1 TC], C1' as [C1' TC']. pose proof (box_unique _ _ _ _ (OD c C1) (OD c' C1') C2 C2') as M. rewrite (SAME c c' C1 C1' M), TC' in TC. discriminate. }
    pose proof (num_nonneg pos (2 * x) (2 * y)) as N1. pose proof (num_nonneg neg (2 * x) (2 * y)) as N2. split.
    + unfold covered45. rewrite halve_depth by exact EE. unfold ev. rewrite (boxes_depth false neg _ _ _ ON), (boxes_depth false pos _ _ _ OP). change (depth45 [] (2 * x) (2 * y)) with 0. unfold hole_sign.
      apply ArbSums.bool_eq. rewrite square_in. split.
      * intros H. assert (H' : 0 <? num pos (2 * x) (2 * y) = true \/ 0 <? num neg (2 * x) (2 * y) = true) by lia. rewrite NS, NL, !square_in in H'. destruct H' as [[c [C1 C2]]|[c [C1 C2]]]; exists c; apply filter_In in C1 as [C1 _]; split; assumption.
      * intros [c [C1 C2]]. assert (H' : 0 <? num pos (2 * x) (2 * y) = true \/ 0 <? num neg (2 * x) (2 * y) = true); [|lia]. rewrite NS, NL, !square_in. destruct (turns_left c) eqn:T; [right|left]; exists c; (split; [apply filter_In; split; [exact C1|rewrite T; reflexivity]|exact C2]).
    + rewrite halve_depth by exact EV. rewrite D2, DR. unfold self_covers. rewrite <- NS, <- NL in BOTH |- *. pose proof (W x y) as Wx. destruct (D01 (2 * x)%R (2 * y)%R) as [D0|D0].
      all: destruct (Z.ltb_spec 0 (num pos (2 * x) (2 * y))) as [G1|G1]; [destruct (Z.ltb_spec 0 (num neg (2 * x) (2 * y))) as [G2|G2]; [destruct (BOTH eq_refl eq_refl)|]; replace (0 <? _) with true by lia; reflexivity|].
      all: destruct (Z.ltb_spec 0 (num neg (2 * x) (2 * y))) as [G2|G2]; [replace (0 <? _) with false by lia; reflexivity|].
      all: rewrite D0 in Wx; destruct (want x y); try lia; rewrite D0; first [replace (0 <? _) with false by lia; reflexivity|replace (0 <? _) with true by lia; reflexivity].
Qed.

(* After an exception of the sweep the operation is repeated with doubled coordinates, and
   this always ends well, whatever polygons are formed and however equal vertices are
   sorted. If the polygons formed from the doubled result have their corners at its vertices
   then, in the original coordinates, the result is right outside of the unit squares around
   the crossings beside the grid; a square is covered as a whole or not at all, depending on
   the corner; and the error data covers just these squares. The result is a boundary in
   order again. *)
Theorem C82_retry : forall form srt op a b sa sb, sorter srt -> boundary45 a -> boundary45 b -> Permutation a sa -> Permutation b sb -> in_order sa -> in_order sb ->
  exists r flag, bool45 (op_code op) (map (scale45 2) sa) (map (scale45 2) sb) = Fine (r, flag) /\
    retry_result form (fun x y => op_covers op (covered45 a x y) (covered45 b x y)) r flag (retry45 form srt (op_code op) sa sb).
Proof.
  intros form srt op a b sa sb SRT A B PA PB SA SB.
  destruct (C79_boolean op (map (scale45 2) a) (map (scale45 2) b) (map (scale45 2) sa) (map (scale45 2) sb)) as [r [flag [H1 [H2 [H3 [H4 H5]]]]]];
    [apply scale_boundary; [lia|assumption]|apply scale_boundary; [lia|assumption]|apply Permutation_map, PA|apply Permutation_map, PB|apply scale_order; [lia|assumption]|apply scale_order; [lia|assumption]|apply scale_even|apply scale_even|].
  exists r, flag. split; [exact H1|]. unfold retry45. rewrite H1. apply finish_ok; try assumption.
  - apply (quiet_op (fun u v => if op_covers op (0 <? u) (0 <? v) then 1 else 0) (depth45 (map (scale45 2) a)) (depth45 (map (scale45 2) b)) _ H2); apply quiet_depth, scale_evenv.
  - intros x y. rewrite H2. destruct (op_covers _ _ _); auto.
  - intros x y. rewrite H2. unfold covered45. rewrite !(scale_depth 2) by lia. reflexivity.
Qed.
Print Assumptions C82_retry.
Theorem C82_retry_self : forall form srt op a sa, sorter srt -> boundary45 a -> Permutation a sa -> in_order sa ->
  exists r flag, unary45 (self_code op) (map (scale45 2) sa) = Fine (r, flag) /\
    retry_result form (fun x y => self_covers op (depth45 a x y)) r flag (retry_self45 form srt (self_code op) sa).
Proof.
  intros form srt op a sa SRT A PA SA.
  destruct (C79_self op (map (scale45 2) a) (map (scale45 2) sa)) as [r [flag [H1 [H2 [H3 [H4 H5]]]]]];
    [apply scale_boundary; [lia|assumption]|apply Permutation_map, PA|apply scale_order; [lia|assumption]|apply scale_even|].
  exists r, flag. split; [exact H1|]. unfold retry_self45. rewrite H1. apply finish_ok; try assumption.
  - apply (quiet_op (fun u _ => if self_covers op u then 1 else 0) (depth45 (map (scale45 2) a)) (depth45 (map (scale45 2) a)) _ H2); apply quiet_depth, scale_evenv.
  - intros x y. rewrite H2. destruct (self_covers _ _); auto.
  - intros x y. rewrite H2, (scale_depth 2) by lia. reflexivity.
Qed.
Print Assumptions C82_retry_self.

(* So the operations never fail. Without an exception the result is exact and the error data
   is that of the operands. *)
Theorem C82_boolean : forall form srt op a b sa sb ea eb, sorter srt -> boundary45 a -> boundary45 b -> Permutation a sa -> Permutation b sb -> in_order sa -> in_order sb ->
  exists d flag e, bool_err45 form srt (op_code op) sa sb ea eb = Fine (d, flag, e) /\
    (bool45 (op_code op) sa sb <> Throw -> e = ea ++ eb /\ forall x y, depth45 d x y = if op_covers op (covered45 a x y) (covered45 b x y) then 1 else 0).
Proof.
  intros form srt op a b sa sb ea eb SRT A B PA PB SA SB. pose proof (C78_boolean op a b sa sb A B PA PB SA SB) as H. unfold bool_err45. destruct (bool45 (op_code op) sa sb) as [[r flag]| |].
  - exists r, flag, (ea ++ eb). split; [reflexivity|]. intros _. split; [reflexivity|apply H].
  - destruct (C82_retry form srt op a b sa sb SRT A B PA PB SA SB) as [r [flag [_ [d [e [R _]]]]]]. exists d, flag, e. split; [exact R|]. intros N. congruence.
  - destruct H.
Qed.
Print Assumptions C82_boolean.
Theorem C82_self : forall form srt op a sa ea, sorter srt -> boundary45 a -> Permutation a sa -> in_order sa ->
  exists d flag e, self_err45 form srt (self_code op) sa ea = Fine (d, flag, e) /\
    (unary45 (self_code op) sa <> Throw -> e = ea /\ forall x y, depth45 d x y = if self_covers op (depth45 a x y) then 1 else 0).
Proof.
  intros form srt op a sa ea SRT A PA SA. pose proof (C78_self op a sa A PA SA) as H. unfold self_err45. destruct (unary45 (self_code op) sa) as [[r flag]| |].
  - exists r, flag, ea. split; [reflexivity|]. intros _. split; [reflexivity|apply H].
  - destruct (C82_retry_self form srt op a sa SRT A PA SA) as [r [flag [_ [d [e [R _]]]]]]. exists d, flag, e. split; [exact R|]. intros N. congruence.
  - destruct H.
Qed.
Print Assumptions C82_self.

(* the doubled intersection of the two diamonds that cross beside the grid, and its ring *)
Definition meet2 : list v45 := match bool45 1 (map (scale45 2) (sort_v (diamond 0))) (map (scale45 2) (sort_v (diamond 3))) with Fine (r, _) => r | _ => [] end.
Definition meet_rings (_ : list v45) : list (list point) := [[mk_pt 3 5; mk_pt 8 0; mk_pt 3 (-5); mk_pt (-2) 0; mk_pt 3 5]].
Lemma sort_sorter : sorter sort_v.
Proof. intros l. split; [apply sort_perm|apply sort_order]. Qed.
Lemma meet_fit : rings_fit meet2 (meet_rings meet2).
Proof.
  assert (T : meet2 = ltac:(let t := eval vm_compute in meet2 in exact t)) by (vm_compute; reflexivity).
  assert (U : side_corners (meet_rings meet2) = ltac:(let t := eval vm_compute in (side_corners (meet_rings meet2)) in exact t)) by (vm_compute; reflexivity).
  unfold rings_fit. rewrite U. split; [constructor; [|constructor]; exists (mk_pt 3 5), (mk_pt 8 0), [mk_pt 3 (-5); mk_pt (-2) 0]; reflexivity|]. split; [|split].
  - intros c [<-|[<-|[]]]; split; reflexivity.
  - rewrite T. intros v V _ [O _]. destruct V as [<-|[<-|[<-|[<-|[]]]]]; first [discriminate O | eexists; split; [left; reflexivity|reflexivity] | eexists; split; [right; left; reflexivity|reflexivity]].
  - intros c d [<-|[<-|[]]] [<-|[<-|[]]] M; try reflexivity; discriminate M.
Qed.
(* error data far away *)
Definition old_errors : list v45 := s_data (insert_rect45 false (mk_rect 20 21 20 21) empty45).
Ltac places := unfold depth45; cbn [tot]; unfold v45_depth, line_below; cbn [v_pt px py v_down v_flat v_up];
  repeat match goal with
  | |- context [rleb ?a ?b] => first [rewrite (rleb_t a b) by lra | rewrite (rleb_f a b) by lra]
  | |- context [rltb ?a ?b] => first [rewrite (rltb_t a b) by lra | rewrite (rltb_f a b) by lra]
  end.
(* Refuted: that the error data of the operands stays in the result. If the sweep throws it
   is lost. *)
Theorem C82_error_data_refuted : exists form srt op a b sa sb ea d flag e, sorter srt /\ boundary45 a /\ boundary45 b /\ Permutation a sa /\ Permutation b sb /\ in_order sa /\ in_order sb /\ boundary45 ea /\
  (exists r, bool45 (op_code op) (map (scale45 2) sa) (map (scale45 2) sb) = Fine (r, false) /\ rings_fit r (form r)) /\
  bool_err45 form srt (op_code op) sa sb ea [] = Fine (d, flag, e) /\ covered45 ea (20 + / 2) (20 + / 2) = true /\ covered45 e (20 + / 2) (20 + / 2) = false.
Proof.
  exists meet_rings, sort_v, And45, (diamond 0), (diamond 3), (sort_v (diamond 0)), (sort_v (diamond 3)), old_errors. eexists _, _, _.
  split; [apply sort_sorter|]. split; [apply diamond_boundary|]. split; [apply diamond_boundary|]. split; [apply sort_perm|]. split; [apply sort_perm|]. split; [apply sort_order|]. split; [apply sort_order|].
  split; [apply (rect45_bvalid false (mk_rect 20 21 20 21) empty45); [unfold rect_ok; cbn [xl xh yl yh]; lia|apply bvalid_empty]|].
  split; [exists meet2; split; [vm_compute; reflexivity|apply meet_fit]|]. split; [vm_compute; reflexivity|]. split.
  - unfold covered45. assert (T : old_errors = ltac:(let t := eval vm_compute in old_errors in exact t)) by (vm_compute; reflexivity). rewrite T. places. reflexivity.
  - unfold covered45. places. reflexivity.
Qed.
Print Assumptions C82_error_data_refuted.

(* the same two diamonds: two squares, above and below, are added to the intersection, which
   comes to grid points; the error data has the eight corners of the squares *)
Example C82_demo :
  bool45 1 (sort_v (diamond 0)) (sort_v (diamond 3)) = Throw /\
  error_rects (meet_rings meet2) = ([box (mk_pt 3 (-5)); box (mk_pt 3 5)], []) /\
  (exists d e, retry45 meet_rings sort_v 1 (sort_v (diamond 0)) (sort_v (diamond 3)) = Fine (d, false, e) /\
    length e = 8%nat /\ In (mk_v45 (mk_pt (-1) 0) 1 0 (-1) 0) d /\ In (mk_v45 (mk_pt 1 (-3)) 0 1 0 1) d) /\
  retry_result meet_rings (fun x y => op_covers And45 (covered45 (diamond 0) x y) (covered45 (diamond 3) x y)) meet2 false (retry45 meet_rings sort_v 1 (sort_v (diamond 0)) (sort_v (diamond 3))).
Proof.
  split; [vm_compute; reflexivity|]. split; [vm_compute; reflexivity|]. split.
  - eexists _, _. split; [vm_compute; reflexivity|]. cbn. tauto.
  - destruct (C82_retry meet_rings sort_v And45 (diamond 0) (diamond 3) (sort_v (diamond 0)) (sort_v (diamond 3)) sort_sorter (diamond_boundary _) (diamond_boundary _) (sort_perm _) (sort_perm _) (sort_order _) (sort_order _)) as [r [flag [E R]]].
    assert (Q : bool45 (op_code And45) (map (scale45 2) (sort_v (diamond 0))) (map (scale45 2) (sort_v (diamond 3))) = Fine (meet2, false)) by (vm_compute; reflexivity). 
    assert (G : forall m : list v45, Fine (m, false) = Fine (r, flag) -> m = r /\ false = flag) by (intros m H; injection H as -> ->; auto). destruct (G _ (eq_trans (eq_sym Q) E)) as [<- <-]. exact R.
Qed.
