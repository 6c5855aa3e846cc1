(* The points that resize_poly_up and resize_poly_down compute for a ring, and
   the vertices of the curve that is inserted. *)
From Verif Require Import Base Units Outcome Scan90Spec VertexLemmas Poly90Spec PolySpec Poly90Model Poly90Proofs PolyCycle Poly90Vertices Poly90Contains
  Set90Spec Set90Model Set90Lemmas Set90Proofs PolyFormModel PolyFormLemmas PolyFormSpec PolyFormRead PolyFormColumns PolyFormCor
  PolyFormGood RingWins BoxEuler RingEuler RingEscape RingGrow ResizePolyModel ColinearProofs.
From Coq Require Import Arith.

(* ---------- one point ---------- *)
Lemma chk_cases z : (chk z = Ok z /\ is_int z) \/ (chk z = Overflow /\ ~ is_int z).
Proof. unfold chk, is_int. destruct ((INT_MIN <=? z) && (z <=? INT_MAX)) eqn:E; [left|right]; split; try reflexivity; lia. Qed.
Lemma obind_def {A B : Type} (r : outcome A) (k : A -> outcome B) : r <> Undefined -> (forall a, k a <> Undefined) -> obind r k <> Undefined.
Proof. intros H K. destruct r as [a| |]; cbn [obind]; [apply K|discriminate|congruence]. Qed.
Section Modify.
Variables w e s n : Z.
Definition two (x y : Z) : outcome point := try y' <- chk y; try x' <- chk x; Ok (mk_pt x' y').
Lemma modify_vh z a b c : z <> b -> a <> c -> modify_pt w e s n (mk_pt a z) (mk_pt a b) (mk_pt c b) = two (up_x w e z a b) (up_y s n a b c).
Proof.
  intros N1 N2. unfold modify_pt, set_if, two, up_x, up_y. cbn [px py]. rewrite !Z.ltb_irrefl. cbn [obind].
  destruct (Z.ltb_spec c a) as [C1|C1], (Z.ltb_spec a c) as [C2|C2], (Z.ltb_spec z b) as [C3|C3], (Z.ltb_spec b z) as [C4|C4]; try lia; cbn [obind].
  all: match goal with |- obind (chk ?u) _ = _ => destruct (chk u) as [u'| |]; cbn [obind]; try reflexivity end.
Qed.
Lemma modify_hv a b c d : b <> d -> a <> c -> modify_pt w e s n (mk_pt a b) (mk_pt c b) (mk_pt c d) = two (up_x w e b c d) (up_y s n a b c).
Proof.
  intros N1 N2. unfold modify_pt, set_if, two, up_x, up_y. cbn [px py]. rewrite !Z.ltb_irrefl. cbn [obind].
  destruct (Z.ltb_spec c a) as [C1|C1], (Z.ltb_spec a c) as [C2|C2], (Z.ltb_spec d b) as [C3|C3], (Z.ltb_spec b d) as [C4|C4]; try lia; cbn [obind].
  all: match goal with |- obind (chk ?u) _ = _ => destruct (chk u) as [u'| |]; cbn [obind]; try reflexivity end.
Qed.
Lemma set_if_def c v old : set_if c v old <> Undefined.
Proof. unfold set_if. destruct c; [|discriminate]. destruct (chk_cases v) as [[E _]|[E _]]; rewrite E; discriminate. Qed.
Lemma modify_def p c q : modify_pt w e s n p c q <> Undefined.
Proof.
  unfold modify_pt. do 8 (apply obind_def; [apply set_if_def|intros ?]). discriminate.
Qed.

(* ---------- all points in order ---------- *)
Fixpoint rzo (prev : point) (l : list point) (fin : point) : outcome (list point) :=
  match l with
  | [] => Ok []
  | c :: t => try q <- modify_pt w e s n prev c (match t with [] => fin | d :: _ => d end); try r <- rzo c t fin; Ok (q :: r)
  end.
Lemma mod_loop_rzo rest : forall prev cur fin,
  rzo prev (cur :: rest) fin = (try ' (l, pc) <- mod_loop w e s n prev cur rest; try q <- modify_pt w e s n (fst pc) (snd pc) fin; Ok (l ++ [q])).
Proof.
  induction rest as [|nx rest IH]; intros prev cur fin; cbn [mod_loop].
  - cbn [rzo obind fst snd app]. destruct (modify_pt w e s n prev cur fin); reflexivity.
  - change (rzo prev (cur :: nx :: rest) fin) with (try q <- modify_pt w e s n prev cur nx; try r <- rzo cur (nx :: rest) fin; Ok (q :: r)). rewrite IH.
    destruct (modify_pt w e s n prev cur nx) as [q| |]; cbn [obind]; try reflexivity. destruct (mod_loop w e s n cur nx rest) as [[l pc]| |]; cbn [obind]; try reflexivity.
    destruct (modify_pt w e s n (fst pc) (snd pc) fin); reflexivity.
Qed.
Lemma mod_loop_last rest : forall prev cur r, mod_loop w e s n prev cur rest = Ok r -> snd (snd r) = last rest cur.
Proof.
  induction rest as [|nx rest IH]; intros prev cur r; cbn [mod_loop]; [intros E; assert (E' : r = ([], (prev, cur))) by congruence; rewrite E'; reflexivity|].
  destruct (modify_pt w e s n prev cur nx); cbn [obind]; try discriminate. destruct (mod_loop w e s n cur nx rest) as [[l pc]| |] eqn:E; cbn [obind]; try discriminate.
  intros E'. assert (E2 : r = (a :: l, pc)) by congruence. rewrite E2. cbn [snd]. specialize (IH cur nx _ E). cbn [snd] in IH. rewrite IH. symmetry. apply last_cons'.
Qed.
Lemma mod_loop_def rest : forall prev cur, mod_loop w e s n prev cur rest <> Undefined.
Proof.
  induction rest as [|nx rest IH]; intros prev cur; cbn [mod_loop]; [discriminate|]. pose proof (modify_def prev cur nx). destruct (modify_pt w e s n prev cur nx); cbn [obind]; try congruence.
  specialize (IH cur nx). destruct (mod_loop w e s n cur nx rest) as [[l pc]| |]; cbn [obind]; congruence.
Qed.
Lemma mod_all_rzo p0 p1 rest : (try r <- mod_loop w e s n p0 p1 rest; mod_ends w e s n p0 p1 r) = rzo (last rest p1) (p0 :: p1 :: rest) p0.
Proof.
  change (rzo (last rest p1) (p0 :: p1 :: rest) p0) with (try q <- modify_pt w e s n (last rest p1) p0 p1; try r <- rzo p0 (p1 :: rest) p0; Ok (q :: r)).
  rewrite mod_loop_rzo. pose proof (modify_def (last rest p1) p0 p1) as D0. pose proof (mod_loop_def rest p0 p1) as D1.
  destruct (mod_loop w e s n p0 p1 rest) as [[l [pv cu]]| |] eqn:E; cbn [obind fst snd].
  - unfold mod_ends. pose proof (mod_loop_last rest p0 p1 _ E) as La. cbn [snd] in La. rewrite La. pose proof (modify_def pv (last rest p1) p0) as D2.
    destruct (modify_pt w e s n pv (last rest p1) p0) as [q| |], (modify_pt w e s n (last rest p1) p0 p1) as [q0| |]; cbn [obind app]; congruence.
  - destruct (modify_pt w e s n (last rest p1) p0 p1); cbn [obind]; congruence.
  - congruence.
Qed.

(* ---------- the points of a ring ---------- *)
Definition pts (u : win) : list point := [mk_pt (wa u) (wb u); mk_pt (wc u) (wb u)].
Definition newpts (u : win) : list point :=
  [mk_pt (up_x w e (wz u) (wa u) (wb u)) (up_y s n (wa u) (wb u) (wc u)); mk_pt (up_x w e (wb u) (wc u) (wd u)) (up_y s n (wa u) (wb u) (wc u))].
Definition bad (u : win) : Prop := ~ is_int (up_x w e (wz u) (wa u) (wb u)) \/ ~ is_int (up_y s n (wa u) (wb u) (wc u)) \/ ~ is_int (up_x w e (wb u) (wc u) (wd u)).
Definition is_pt (p : point) : Prop := is_int (px p) /\ is_int (py p).
Lemma two_cases x y : (two x y = Ok (mk_pt x y) /\ is_int x /\ is_int y) \/ (two x y = Overflow /\ (~ is_int x \/ ~ is_int y)).
Proof.
  unfold two. destruct (chk_cases y) as [[E1 I1]|[E1 I1]]; rewrite E1; cbn [obind]; [|right; tauto]. destruct (chk_cases x) as [[E2 I2]|[E2 I2]]; rewrite E2; cbn [obind]; [left|right]; tauto.
Qed.
Definition nzw (u : win) : Prop := wa u <> wc u /\ wb u <> wd u /\ wz u <> wb u.
Lemma rzo_wins rest : forall z q f, Forall nzw (wins_go z q rest f) ->
  match rzo (mk_pt (fst q) z) (flat_map pts (wins_go z q rest f)) (mk_pt (fst f) (snd f)) with
  | Ok l => l = flat_map newpts (wins_go z q rest f) /\ Forall is_pt l
  | Overflow => Exists bad (wins_go z q rest f)
  | Undefined => False
  end.
Proof.
  assert (One : forall u (k : outcome (list point)) L (X : list win), nzw u ->
    match k with Ok l => l = L /\ Forall is_pt l | Overflow => Exists bad X | Undefined => False end ->
    match (try q1 <- modify_pt w e s n (mk_pt (wa u) (wz u)) (mk_pt (wa u) (wb u)) (mk_pt (wc u) (wb u));
           try r1 <- (try q2 <- modify_pt w e s n (mk_pt (wa u) (wb u)) (mk_pt (wc u) (wb u)) (mk_pt (wc u) (wd u)); try r2 <- k; Ok (q2 :: r2)); Ok (q1 :: r1))
    with Ok l => l = newpts u ++ L /\ Forall is_pt l | Overflow => Exists bad (u :: X) | Undefined => False end).
  { intros u k L X [N1 [N2 N3]] K. rewrite modify_vh by assumption. rewrite modify_hv by assumption.
    destruct (two_cases (up_x w e (wz u) (wa u) (wb u)) (up_y s n (wa u) (wb u) (wc u))) as [[E1 [I1 I2]]|[E1 I1]]; rewrite E1; cbn [obind]; [|left; unfold bad; tauto].
    destruct (two_cases (up_x w e (wb u) (wc u) (wd u)) (up_y s n (wa u) (wb u) (wc u))) as [[E2 [I3 I4]]|[E2 I3]]; rewrite E2; cbn [obind]; [|left; unfold bad; tauto].
    destruct k as [l| |]; cbn [obind]; [|right; exact K|exact K]. destruct K as [-> K2]. split; [reflexivity|]. constructor; [split; assumption|]. constructor; [split; assumption|]. exact K2. }
  induction rest as [|r rest IH]; intros z q f F.
  - cbn [wins_go flat_map app] in *. inversion F as [|? ? F1 _]; subst. apply (One _ (Ok []) [] [] F1). split; [reflexivity|constructor].
  - cbn [wins_go] in F. inversion F as [|? ? F1 F2]; subst. specialize (IH (snd q) r f F2). cbn [wins_go flat_map]. pose proof (One _ _ _ _ F1 IH) as K. cbn [wz wa wb wc wd] in K.
    assert (Hd : exists t, flat_map pts (wins_go (snd q) r rest f) = mk_pt (fst r) (snd r) :: t) by (destruct rest as [|r2 rest]; cbn [wins_go flat_map app pts wa wb]; eexists; reflexivity).
    destruct Hd as [t Et]. rewrite Et in K |- *. exact K.
Qed.
End Modify.
Lemma rzo_ring w e s n cs p0 t : Forall nzw (wins cs) -> ring_points (flat cs) = p0 :: t ->
  match rzo w e s n (last t p0) (p0 :: t) p0 with
  | Ok l => l = ring_points (flat (moved (up_x w e) (up_y s n) cs)) /\ Forall is_pt l
  | Overflow => Exists (bad w e s n) (wins cs)
  | Undefined => False
  end.
Proof.
  intros F E. rewrite wins_points in E. destruct cs as [|q rest]; [discriminate|]. rewrite moved_points. cbn [wins] in *. pose proof (rzo_wins w e s n rest (snd (last rest q)) q q F) as K.
  change (flat_map (fun w => [mk_pt (wa w) (wb w); mk_pt (wc w) (wb w)])) with (flat_map pts) in E. rewrite E in K.
  assert (Hp : p0 = mk_pt (fst q) (snd q)) by (destruct rest as [|r2 rest]; cbn [wins_go flat_map app pts wa wb] in E; congruence).
  assert (Hl : last t p0 = mk_pt (fst q) (snd (last rest q))).
  { rewrite <- (last_cons' t p0 p0), <- E. clear.
    assert (G : forall rest z q f d, last (flat_map pts (wins_go z q rest f)) d = mk_pt (fst f) (snd (last rest q))).
    { clear. induction rest as [|r rest IH]; intros z q f d; [reflexivity|]. cbn [wins_go flat_map]. rewrite last_cons'. rewrite last_app2; [apply IH|]. destruct rest; discriminate. }
    apply G. }
  rewrite Hl, Hp in *. exact K.
Qed.

(* ---------- the vertices of a curve ---------- *)
Lemma curve_strict o c : strict_ring c -> exists V, match ring_points c with p0 :: p1 :: p2 :: rest => lift (igs_go o 1 p0 p1 p0 p1 p2 rest) | _ => Undefined end = Ok V /\ good o V (winding_number (ring_points c)).
Proof.
  intros S. destruct (ring_proper_nf c (strict_proper c S)) as [x0 [y0 [[x1 y1] [cs [El [NF HI]]]]]]; [apply S|].
  assert (EP : ring_points c = rp x0 ((x0, y0) :: (x1, y1) :: cs)) by (rewrite El, <- ring_points_flat; reflexivity). rewrite EP. cbn [rp].
  assert (LR : last (mk_pt (match cs with [] => x0 | (x', _) :: _ => x' end) y1 :: rp x0 cs) (mk_pt x1 y1) <> mk_pt x0 y0).
  { pose proof (last_rp x0 ((x1, y1) :: cs) (mk_pt x1 y1) x0 y0) as LR. cbn [rp] in LR.
    intros E. destruct NF as [_ [_ N2]]. apply N2.
    assert (E' : mk_pt x0 (snd (last ((x1, y1) :: cs) (x0, y0))) = mk_pt x0 y0).
    { rewrite <- LR. rewrite <- E. set (q := mk_pt _ y1). set (r := rp x0 cs). clearbody q r. reflexivity. }
    congruence. }
  exists (tri (evaluate o 1) (path x0 y0 ((x1, y1) :: cs))). split; [rewrite igs_go_tri by exact LR; reflexivity|]. split; [|split].
  - split; intros u.
    + rewrite col_tri, S_ring by exact NF. destruct o; cbn [perp pt_get].
      * rewrite ring_sum_y; [lia|]. intros p q ->. reflexivity.
      * rewrite ring_sum_x; [lia|]. intros p q ->. reflexivity.
    + rewrite row_tri, S_ring by exact NF. destruct o; cbn [pt_get].
      * rewrite ring_sum_x; [lia|]. intros p q ->. reflexivity.
      * rewrite ring_sum_y; [lia|]. intros p q ->. reflexivity.
  - apply Forall_forall. intros v Hv. apply tri_in in Hv as [a' [b [c' [-> [_ [Hb _]]]]]].
    assert (Ib : is_int (px b) /\ is_int (py b)).
    { rewrite El in HI. assert (J : forall z, z = x0 \/ In z (flat ((x0, y0) :: (x1, y1) :: cs)) -> is_int z).
      { rewrite Forall_forall in HI. intros z [-> |Hz]; [|auto]. apply HI.
        change (flat ((x0, y0) :: (x1, y1) :: cs)) with (x0 :: y0 :: flat ((x1, y1) :: cs)). cbn [In]. auto. }
      unfold path in Hb. apply in_app_or in Hb as [Hb|Hb].
      - apply rp_coords in Hb as [A B]. split; apply J; tauto.
      - change (flat ((x0, y0) :: (x1, y1) :: cs)) with (x0 :: y0 :: x1 :: y1 :: flat cs) in J.
        cbn [In] in Hb. destruct Hb as [<-|[<-|[]]]; cbn [px py]; split; apply J; cbn [In]; auto 10. }
    unfold evaluate, vint, vx, vy. cbn [fst snd]. destruct o; cbn [perp pt_get]; tauto.
  - intros x y. rewrite wind_tri, S_ring by exact NF. 
    assert (W : winding_number (rp x0 ((x0, y0) :: (x1, y1) :: cs)) x y = ring_sum (quad x y) x0 ((x0, y0) :: (x1, y1) :: cs)).
    { unfold winding_number. cbn [rp]. rewrite cyc_pedges. exact (winding_ring x y x0 ((x0, y0) :: (x1, y1) :: cs) (mk_pt x0 y0) eq_refl). }
    cbn [rp] in W. rewrite W. lia.
Qed.
Lemma ptc_int l : forall o, Forall is_pt l -> Forall is_int (ptc_go o l).
Proof. induction l as [|p l IH]; intros o F; [constructor|]. inversion F as [|? ? [F1 F2] F3]; subst. cbn [ptc_go]. constructor; [destruct o; assumption|]. apply IH. exact F3. Qed.
Lemma curve_alt_h o l : alternates Horizontal l -> no_zero_edge l -> Forall is_pt l -> (4 <= length l)%nat ->
  exists V, curve_vertices o l = Ok V /\ good o V (winding_number l).
Proof.
  intros A N I L. pose proof (ring_of_points_h l A) as E. assert (S : strict_ring (points_to_compact l)).
  { split; [apply ptc_int; exact I|]. rewrite ptc_length. split; [apply A|]. split; [exact L|]. rewrite E. exact N. }
  destruct (curve_strict o _ S) as [V [EV G]]. rewrite E in *. exists V. split; [|exact G]. unfold curve_vertices. rewrite points_round_trip_h by assumption. cbv zeta.
  replace (length l <? 4)%nat with false by (symmetry; apply Nat.ltb_ge; exact L). rewrite orb_false_r. destruct l as [|p0 l']; [cbn in L; lia|]. exact EV.
Qed.
Lemma curve_red o l : (length l < 4)%nat /\ rectilinear l \/ (exists k, alternates k l) /\ no_zero_edge l -> Forall is_pt l -> exists V, curve_vertices o l = Ok V /\ good o V (winding_number l).
Proof.
  intros C I. destruct (Nat.lt_ge_cases (length l) 4) as [L|L].
  - exists []. assert (R : rectilinear l).
    { destruct C as [[_ C]|[[k [_ A]] _]]; [exact C|]. unfold rectilinear. revert A. generalize (cyc_edges l). intros es. revert k. induction es as [|[a b] es IH]; intros k A; [constructor|].
      apply alt_cons in A as [A1 A2]. constructor; [unfold axis_edge; cbn [fst snd]; destruct k; tauto|exact (IH _ A2)]. }
    split; [unfold curve_vertices; cbv zeta; replace (length l <? 4)%nat with true by (symmetry; apply Nat.ltb_lt; exact L); rewrite orb_true_r; reflexivity|].
    split; [apply closed_nil|]. split; [constructor|]. intros x y. rewrite short_winding by assumption. destruct o; reflexivity.
  - destruct C as [[C _]|[[k A] N]]; [lia|]. destruct k; [apply curve_alt_h; assumption|]. destruct l as [|f t]; [cbn in L; lia|].
    pose proof (alt_rotate f t A) as A'. pose proof (nz_rotate f t N) as N'.
    destruct (curve_alt_h o (t ++ [f]) A' N') as [V [EV G]].
    + inversion I; subst. apply Forall_app. split; [assumption|]. constructor; [assumption|constructor].
    + rewrite app_length. cbn [length] in *. lia.
    + exists V. split.
      * unfold curve_vertices in *. rewrite (ptc_rotate f t A). replace (length (f :: t)) with (length (t ++ [f])) by (rewrite app_length; cbn [length]; lia). exact EV.
      * eapply good_ext; [exact G|]. intros x y. cbn beta. rewrite winding_rotate. reflexivity.
Qed.
