(* The vertices that a Manhattan polygon contributes to a polygon set. *)
From Verif Require Import Base Units Outcome Scan90Spec VertexLemmas Poly90Spec Poly90Model Poly90Proofs
  Set90Spec Set90Model Set90Lemmas Set90Proofs.

Lemma rp_axis fx cs : forall p, (match cs with [] => True | _ => px p = fx end) ->
  Forall axis_edge (pedges (rp fx cs ++ [p])).
Proof.
  induction cs as [|[x y] cs IH]; intros p E; [constructor|].
  cbn [rp app]. destruct cs as [|[x' y'] cs].
  - cbn [rp app pedges]. constructor; [|constructor; [|constructor]]; unfold axis_edge; cbn [fst snd px py]; auto.
  - specialize (IH p E). cbn [rp app] in IH |- *. constructor; [|constructor; [|exact IH]]; unfold axis_edge; cbn [fst snd px py]; auto.
Qed.
Lemma last_rp fx cs : forall d x y, last (rp fx ((x, y) :: cs)) d = mk_pt fx (snd (last cs (x, y))).
Proof.
  induction cs as [|[x' y'] cs IH]; intros d x y; [reflexivity|].
  change (rp fx ((x, y) :: (x', y') :: cs)) with (mk_pt x y :: mk_pt x' y :: rp fx ((x', y') :: cs)).
  assert (L : last ((x', y') :: cs) (x, y) = last cs (x', y')).
  { destruct cs as [|c cs]; [reflexivity|]. exact (last_dflt cs c _ _). }
  rewrite L. rewrite <- (IH d x' y'). reflexivity.
Qed.
Lemma rp_coords fx cs p : In p (rp fx cs) -> (px p = fx \/ In (px p) (flat cs)) /\ In (py p) (flat cs).
Proof.
  induction cs as [|[x y] cs IH]; [intros []|]. cbn [rp]. change (flat ((x, y) :: cs)) with (x :: y :: flat cs).
  intros [<-|[<-|H]].
  - cbn [px py In]. auto.
  - cbn [px py]. split; [|cbn [In]; auto]. destruct cs as [|[x' y'] cs]; [auto|].
    change (flat ((x', y') :: cs)) with (x' :: y' :: flat cs). cbn [In]. auto 10.
  - destruct (IH H) as [[A|A] B]; cbn [In]; auto 10.
Qed.

(* rings with enough coordinates *)
Lemma ring_proper_nf l : ring_proper l -> Forall is_int l ->
  exists x0 y0 c cs, l = flat ((x0, y0) :: c :: cs) /\ ring_nf x0 y0 (c :: cs) /\ Forall is_int l.
Proof.
  intros [[n H] [[x0 [y0 [m [xn [yn [E [N1 N2]]]]]]] M]] HI.
  assert (Lm : exists k, length m = (2 * k)%nat).
  { exists (n - 2)%nat. rewrite E in H. cbn [length] in H. rewrite app_length in H. cbn [length] in H. lia. }
  destruct Lm as [k Lm]. destruct (even_flat k m Lm) as [cs [Em _]].
  assert (F : l = flat ((x0, y0) :: cs ++ [(xn, yn)])).
  { rewrite E, Em. unfold flat. cbn [flat_map fst snd app]. rewrite flat_map_app. reflexivity. }
  assert (La : forall d, last (cs ++ [(xn, yn)]) d = (xn, yn)) by (intros d; apply last_app1).
  destruct (cs ++ [(xn, yn)]) as [|c cs'] eqn:Ec; [destruct cs; discriminate|].
  exists x0, y0, c, cs'. split; [exact F|]. split; [|exact HI]. split; [|rewrite La; split; assumption].
  rewrite <- F. apply ring_moves_mv. exact M.
Qed.

(* a point repeated at the end *)
Lemma cyc_close p l : cyc_edges ((p :: l) ++ [p]) = cyc_edges (p :: l) ++ [(p, p)].
Proof.
  cbn [app]. rewrite (cyc_pedges p (l ++ [p])), cyc_pedges.
  change (p :: l ++ [p]) with ((p :: l) ++ [p]). change (((p :: l) ++ [p]) ++ [p]) with ((p :: (l ++ [p])) ++ [p]).
  rewrite (pedges_app (l ++ [p])), last_app1. reflexivity.
Qed.
Lemma winding_close p l x y : winding_number ((p :: l) ++ [p]) x y = winding_number (p :: l) x y.
Proof.
  unfold winding_number. rewrite cyc_close, zsum_app, zsum_cons. destruct p as [a b]. rewrite crossing_v.
  unfold zsum. cbn [fold_right]. lia.
Qed.
Lemma shoelace_close p l : shoelace2 ((p :: l) ++ [p]) = shoelace2 (p :: l).
Proof.
  unfold shoelace2. rewrite cyc_close, zsum_app, zsum_cons. unfold zsum. cbn [fold_right fst snd]. lia.
Qed.
Definition count_of (ps : list point) (x y : Z) : Z :=
  if 0 <? shoelace2 ps then winding_number ps x y else - winding_number ps x y.
Lemma count_close p l x y : count_of ((p :: l) ++ [p]) x y = count_of (p :: l) x y.
Proof. unfold count_of. rewrite shoelace_close, winding_close. reflexivity. Qed.

Lemma ctp_flat1 fx cs : forall x y, ctp_go fx (mk_pt x y) Horizontal (flat cs ++ [fx]) = rp fx ((x, y) :: cs).
Proof.
  induction cs as [|[x' y'] cs IH]; intros x y.
  - cbn [flat flat_map app ctp_go rp pt_set perp px py]. rewrite Z.eqb_refl. reflexivity.
  - change (flat ((x', y') :: cs) ++ [fx]) with (x' :: y' :: flat cs ++ [fx]).
    cbn [ctp_go pt_set perp px py]. rewrite IH. reflexivity.
Qed.
Lemma ctp_flat2 fx fy cs : forall x y,
  ctp_go fx (mk_pt x y) Horizontal (flat cs ++ [fx; fy]) = rp fx ((x, y) :: cs) ++ [mk_pt fx fy].
Proof.
  induction cs as [|[x' y'] cs IH]; intros x y.
  - cbn [flat flat_map app ctp_go rp pt_set perp px py]. rewrite Z.eqb_refl. reflexivity.
  - change (flat ((x', y') :: cs) ++ [fx; fy]) with (x' :: y' :: flat cs ++ [fx; fy]).
    cbn [ctp_go pt_set perp px py]. rewrite IH. reflexivity.
Qed.
Lemma ring_points_flat1 fx cs : forall x y, ring_points_from fx (flat ((x, y) :: cs) ++ [fx]) = rp fx ((x, y) :: cs).
Proof.
  induction cs as [|[x' y'] cs IH]; intros x y; [reflexivity|].
  change (flat ((x, y) :: (x', y') :: cs) ++ [fx]) with (x :: y :: (flat ((x', y') :: cs) ++ [fx])).
  specialize (IH x' y'). cbn [rp] in *. rewrite <- IH. reflexivity.
Qed.
Lemma rp_app1 fx fy cs : forall x y, rp fx (((x, y) :: cs) ++ [(fx, fy)]) = rp fx ((x, y) :: cs) ++ [mk_pt fx fy; mk_pt fx fy].
Proof.
  induction cs as [|[x' y'] cs IH]; intros x y; [reflexivity|].
  specialize (IH x' y'). cbn [rp app] in *. rewrite IH. reflexivity.
Qed.
Lemma flat_app cs1 cs2 : flat (cs1 ++ cs2) = flat cs1 ++ flat cs2.
Proof. apply flat_map_app. Qed.

(* the points of an accepted ring, with or without a repeated first point *)
Lemma ring_ok_points l : ring_ok l -> (4 <= length l)%nat ->
  exists x0 y0 c cs, let ps := rp x0 ((x0, y0) :: c :: cs) in
    ring_nf x0 y0 (c :: cs) /\ Forall is_int (flat ((x0, y0) :: c :: cs)) /\
    (compact_to_points l = ps \/ compact_to_points l = ps ++ [mk_pt x0 y0]) /\
    forall x y, ring_count l x y = count_of ps x y.
Proof.
  intros [HI [H|[H|[x0 [y0 [m [H E]]]]]]] L; [lia| |].
  - destruct (ring_proper_nf l H HI) as [x0 [y0 [c [cs [El [NF HI']]]]]].
    exists x0, y0, c, cs. cbv zeta. split; [exact NF|]. split; [rewrite <- El; exact HI|].
    split; [left; rewrite El; apply (ctp_flat x0 (c :: cs)); apply NF|].
    intros x y. unfold ring_count, count_of.
    assert (ER : ring_points l = rp x0 ((x0, y0) :: c :: cs)) by (rewrite El; apply ring_points_flat).
    rewrite ER. reflexivity.
  - assert (HI0 : Forall is_int (x0 :: y0 :: m)).
    { destruct E as [-> | ->]; apply Forall_app in HI; apply HI. }
    destruct (ring_proper_nf _ H HI0) as [x1 [y1 [c [cs [El [NF HI']]]]]].
    assert (x1 = x0) by (unfold flat in El; cbn [flat_map fst snd app] in El; congruence).
    assert (y1 = y0) by (unfold flat in El; cbn [flat_map fst snd app] in El; congruence). subst x1 y1.
    assert (Em : m = flat (c :: cs)) by (unfold flat in El |- *; cbn [flat_map fst snd app] in El |- *; congruence).
    exists x0, y0, c, cs. cbv zeta. split; [exact NF|]. split; [rewrite <- El; exact HI0|].
    rewrite Em in E. destruct E as [-> | ->].
    + split; [left; exact (ctp_flat1 x0 (c :: cs) x0 y0)|].
      intros x y. unfold ring_count, count_of.
      assert (ER : ring_points ((x0 :: y0 :: flat (c :: cs)) ++ [x0]) = rp x0 ((x0, y0) :: c :: cs))
        by exact (ring_points_flat1 x0 (c :: cs) x0 y0).
      rewrite ER. reflexivity.
    + split; [right; exact (ctp_flat2 x0 y0 (c :: cs) x0 y0)|].
      intros x y.
      assert (ER : ring_points ((x0 :: y0 :: flat (c :: cs)) ++ [x0; y0]) =
                   (rp x0 ((x0, y0) :: c :: cs) ++ [mk_pt x0 y0]) ++ [mk_pt x0 y0]).
      { change (ring_points ((x0 :: y0 :: flat (c :: cs)) ++ [x0; y0]))
          with (ring_points_from x0 (flat ((x0, y0) :: c :: cs) ++ flat [(x0, y0)])).
        rewrite <- flat_app, ring_points_flat, rp_app1, <- app_assoc. reflexivity. }
      unfold ring_count. rewrite ER.
      fold (count_of ((rp x0 ((x0, y0) :: c :: cs) ++ [mk_pt x0 y0]) ++ [mk_pt x0 y0]) x y).
      assert (EQ : exists t, rp x0 ((x0, y0) :: c :: cs) = mk_pt x0 y0 :: t) by (destruct c; eexists; reflexivity).
      destruct EQ as [t ->]. rewrite (count_close (mk_pt x0 y0) (t ++ [mk_pt x0 y0])). apply count_close.
Qed.
Lemma igs_go_tri2 o m f s rest : forall p0 p1 p2, last rest p2 <> f ->
  igs_go o m f s p0 p1 p2 (rest ++ [f]) = Some (tri (evaluate o m) (p0 :: p1 :: p2 :: rest ++ [f; s])).
Proof.
  induction rest as [|p3 rest IH]; intros p0 p1 p2 H.
  - cbn [app igs_go igs_tail tri bind]. rewrite !pt_eqb_refl. reflexivity.
  - cbn [app igs_go]. rewrite IH; [reflexivity|].
    destruct rest as [|p4 rest]; [exact H|]. rewrite (last_dflt rest p4 _ p2). exact H.
Qed.

Lemma ring_small l x y : (length l < 4)%nat -> ring_count l x y = 0.
Proof.
  intros H. unfold ring_count.
  assert (E : winding_number (ring_points l) x y = 0).
  { destruct l as [|a [|b [|c [|d l]]]]; cbn [length] in H; try lia; try reflexivity;
      unfold winding_number; cbn [ring_points ring_points_from]; cbn [cyc_edges app combine]; rewrite !zsum_cons, !crossing_h; unfold zsum; cbn [fold_right]; lia. }
  rewrite E. destruct (_ <? _); reflexivity.
Qed.

Lemma zsum_tri (g g' : point -> point -> point -> Z) L : (forall a b c, g a b c = g' a b c) ->
  zsum (fun z => z) (tri g L) = zsum (fun z => z) (tri g' L).
Proof.
  intros E. induction L as [|a L IH]; [reflexivity|]. destruct L as [|b [|c L]]; [reflexivity|reflexivity|].
  cbn [tri] in *. rewrite !zsum_cons. rewrite IH, E. reflexivity.
Qed.
Lemma wind_tri o m L x y : wind o (tri (evaluate o m) L) x y = m * S_sum (quad x y) L.
Proof.
  destruct o; cbn [wind]; rewrite cnt_tri; cbn [perp pt_get]; unfold S_sum, quad; apply (f_equal (Z.mul m));
    apply zsum_tri; intros a b c; [rewrite (andb_comm (py b <=? y))|]; reflexivity.
Qed.

Lemma ring_vertices_spec o hole l : ring_ok l ->
  match ring_vertices o hole l with
  | Ok V => closed V /\ dint V /\
      forall x y, wind o V x y = (if hole then -1 else 1) * ring_count l x y
  | Overflow => True
  | Undefined => False
  end.
Proof.
  intros HR. unfold ring_vertices. destruct (Nat.ltb_spec (length l) 4) as [L4|L4].
  - rewrite orb_true_r. split; [apply closed_nil|]. split; [constructor|]. intros x y.
    rewrite (ring_small l x y L4). destruct o, hole; reflexivity.
  - destruct (ring_ok_points l HR L4) as [x0 [y0 [[x1 y1] [cs [NF [HI [EP RC]]]]]]].
    set (ps := rp x0 ((x0, y0) :: (x1, y1) :: cs)) in *.
    assert (AX0 : Forall axis_edge (cyc_edges ps)).
    { unfold ps. cbn [rp]. rewrite cyc_pedges. exact (rp_axis x0 ((x0, y0) :: (x1, y1) :: cs) (mk_pt x0 y0) eq_refl). }
    set (CP := compact_to_points l) in *.
    assert (AX : Forall axis_edge (cyc_edges CP) /\ shoelace2 CP = shoelace2 ps).
    { destruct EP as [-> | ->]; [split; [exact AX0|reflexivity]|].
      assert (EQ : exists t, ps = mk_pt x0 y0 :: t) by (eexists; reflexivity). destruct EQ as [t Et]. rewrite Et in AX0 |- *.
      rewrite cyc_close, shoelace_close. split; [|reflexivity].
      apply Forall_app. split; [exact AX0|]. constructor; [left; reflexivity|constructor]. }
    destruct AX as [AX SH].
    cbv zeta. rewrite orb_false_r.
    unfold points_ccw.
    pose proof (points_area_defined CP) as D. pose proof (points_area_eq CP) as PA.
    assert (NE : match CP with [] => true | _ :: _ => false end = false) by (destruct EP as [-> | ->]; reflexivity).
    rewrite NE.
    destruct (points_area CP) as [a| |]; [|exact I|contradiction].
    specialize (PA a AX eq_refl). rewrite SH in PA. cbn [obind].
    set (mm := if hole then _ else _).
    assert (LR : last (mk_pt (match cs with [] => x0 | (x', _) :: _ => x' end) y1 :: rp x0 cs) (mk_pt x1 y1) <> mk_pt x0 y0).
    { pose proof (last_rp x0 ((x1, y1) :: cs) (mk_pt x1 y1) x0 y0) as LR. cbn [rp] in LR.
      intros E. destruct NF as [_ [_ N2]]. apply N2.
      assert (E' : mk_pt x0 (snd (last ((x1, y1) :: cs) (x0, y0))) = mk_pt x0 y0).
      { rewrite <- LR. rewrite <- E. set (q := mk_pt _ y1). set (r := rp x0 cs). clearbody q r. reflexivity. }
      congruence. }
    assert (TL : match CP with
                 | p0 :: p1 :: p2 :: rest => lift (igs_go o mm p0 p1 p0 p1 p2 rest)
                 | _ => Undefined
                 end = Ok (tri (evaluate o mm) (path x0 y0 ((x1, y1) :: cs)))).
    { destruct EP as [-> | ->]; unfold ps; cbn [rp app].
      - rewrite igs_go_tri by exact LR. reflexivity.
      - pose proof (igs_go_tri2 o mm (mk_pt x0 y0) (mk_pt x1 y0) _ (mk_pt x0 y0) (mk_pt x1 y0) (mk_pt x1 y1) LR) as T2.
        cbn [app] in T2. rewrite T2. reflexivity. }
    rewrite TL.
    split; [|split].
    + split; intros u.
      * rewrite col_tri, S_ring by exact NF. destruct o; cbn [perp pt_get].
        -- rewrite ring_sum_y; [lia|]. intros p q ->. reflexivity.
        -- rewrite ring_sum_x; [lia|]. intros p q ->. reflexivity.
      * rewrite row_tri, S_ring by exact NF. destruct o; cbn [pt_get].
        -- rewrite ring_sum_x; [lia|]. intros p q ->. reflexivity.
        -- rewrite ring_sum_y; [lia|]. intros p q ->. reflexivity.
    + apply Forall_forall. intros v Hv. apply tri_in in Hv as [a' [b [c [-> [_ [Hb _]]]]]].
      assert (Ib : is_int (px b) /\ is_int (py b)).
      { assert (J : forall z, z = x0 \/ In z (flat ((x0, y0) :: (x1, y1) :: cs)) -> is_int z).
        { rewrite Forall_forall in HI. intros z [-> |Hz]; [|auto]. apply HI.
          change (flat ((x0, y0) :: (x1, y1) :: cs)) with (x0 :: y0 :: flat ((x1, y1) :: cs)). cbn [In]. auto. }
        unfold path in Hb. apply in_app_or in Hb as [Hb|Hb].
        - apply rp_coords in Hb as [A B]. split; apply J; tauto.
        - change (flat ((x0, y0) :: (x1, y1) :: cs)) with (x0 :: y0 :: x1 :: y1 :: flat cs) in J.
          cbn [In] in Hb. destruct Hb as [<-|[<-|[]]]; cbn [px py]; split; apply J; cbn [In]; auto 10. }
      unfold evaluate, vint, vx, vy. cbn [fst snd]. destruct o; cbn [perp pt_get]; tauto.
    + intros x y. rewrite wind_tri, S_ring by exact NF. rewrite RC. unfold count_of.
      assert (W : winding_number ps x y = ring_sum (quad x y) x0 ((x0, y0) :: (x1, y1) :: cs)).
      { unfold winding_number, ps. cbn [rp]. rewrite cyc_pedges. exact (winding_ring x y x0 ((x0, y0) :: (x1, y1) :: cs) (mk_pt x0 y0) eq_refl). }
      rewrite W. subst mm. destruct (Z.ltb_spec a 0), (Z.ltb_spec 0 (shoelace2 ps)), hole; lia.
Qed.

Lemma chain_nonempty v w vs : chain_vertices (v :: w :: vs) =
  (match v with [] => [(0, (0, 0))] | _ => v end) ++ chain_vertices (w :: vs).
Proof. destruct v; reflexivity. Qed.
Lemma chain_one v : chain_vertices [v] = v.
Proof. destruct v as [|a v]; [reflexivity|]. cbn [chain_vertices]. apply app_nil_r. Qed.
Definition good (o : orient) (V : list vertex) (w : Z -> Z -> Z) : Prop :=
  closed V /\ dint V /\ forall x y, wind o V x y = w x y.
Lemma good_pad o v w : good o v w -> good o (match v with [] => [(0, (0, 0))] | _ => v end) w.
Proof.
  destruct v as [|a v]; [|auto]. intros [_ [_ W]]. split; [|split].
  - split; intros u; cbn [col_total row_total vx vy vc fst snd]; destruct (0 =? u); reflexivity.
  - repeat constructor; unfold is_int, INT_MIN, INT_MAX, vx, vy; cbn [fst snd]; lia.
  - intros x y. rewrite <- W. destruct o; cbn [wind cnt vx vy vc fst snd]; destruct ((_ && _)%bool); reflexivity.
Qed.
Lemma good_app o V W f g : good o V f -> good o W g -> good o (V ++ W) (fun x y => f x y + g x y).
Proof.
  intros [A [B C]] [A' [B' C']]. split; [apply closed_app; assumption|]. split; [apply Forall_app; split; assumption|].
  intros x y. rewrite wind_app, C, C'. reflexivity.
Qed.
Lemma good_ext o V f g : good o V f -> (forall x y, f x y = g x y) -> good o V g.
Proof. intros [A [B C]] E. split; [exact A|]. split; [exact B|]. intros x y. rewrite C. apply E. Qed.
Lemma chain_good o vs : forall v w fs, good o v w -> Forall2 (good o) vs fs ->
  good o (chain_vertices (v :: vs)) (fun x y => w x y + zsum (fun f : Z -> Z -> Z => f x y) fs).
Proof.
  induction vs as [|v' vs IH]; intros v w fs G F2; inversion F2 as [|? f ? fs' G' F2']; subst.
  - rewrite chain_one. eapply good_ext; [exact G|]. intros x y. unfold zsum. cbn [fold_right]. lia.
  - rewrite chain_nonempty. eapply good_ext; [exact (good_app _ _ _ _ _ (good_pad _ _ _ G) (IH v' f fs' G' F2'))|].
    intros x y. cbn beta. rewrite zsum_cons. lia.
Qed.
Definition sgn_hole (hole : bool) : Z := if hole then -1 else 1.
Lemma map_rings o hole hs : Forall ring_ok hs ->
  match map_outcome (ring_vertices o hole) hs with
  | Ok vs => Forall2 (good o) vs (map (fun h x y => sgn_hole hole * ring_count h x y) hs)
  | Overflow => True
  | Undefined => False
  end.
Proof.
  induction hs as [|h hs IH]; intros H; [constructor|]. inversion H as [|? ? H1 H2]; subst.
  cbn [map_outcome map]. pose proof (ring_vertices_spec o hole h H1) as R. specialize (IH H2).
  destruct (ring_vertices o hole h) as [V| |]; [|exact I|contradiction]. cbn [obind].
  destruct (map_outcome (ring_vertices o hole) hs) as [vs| |]; [|exact I|contradiction]. cbn [obind].
  constructor; [exact R|exact IH].
Qed.
Lemma poly_vertices_spec o hole p : poly_ok p ->
  match poly_vertices o hole p with
  | Ok V => good o V (fun x y => sgn_hole hole * poly_count p x y)
  | Overflow => True
  | Undefined => False
  end.
Proof.
  intros [HO HH]. unfold poly_vertices.
  pose proof (ring_vertices_spec o hole _ HO) as R.
  destruct (ring_vertices o hole (p_outer p)) as [V| |]; [|exact I|contradiction]. cbn [obind].
  pose proof (map_rings o (negb hole) _ HH) as R2.
  destruct (map_outcome (ring_vertices o (negb hole)) (p_holes p)) as [vs| |]; [|exact I|contradiction]. cbn [obind].
  eapply good_ext; [exact (chain_good o vs V _ _ R R2)|]. intros x y. cbn beta. unfold poly_count.
  assert (E : forall hs, zsum (fun f : Z -> Z -> Z => f x y) (map (fun h x y => sgn_hole (negb hole) * ring_count h x y) hs)
    = - sgn_hole hole * zsum (fun h => ring_count h x y) hs).
  { induction hs as [|h hs IH]; [unfold zsum; cbn [map fold_right]; lia|]. cbn [map]. rewrite !zsum_cons, IH. destruct hole; cbn [sgn_hole negb]; lia. }
  rewrite E. destruct hole; cbn [sgn_hole]; lia.
Qed.

(* no overflow for polygons whose coordinates are not too large *)
Lemma chk64_fits z : - 2 ^ 63 <= z < 2 ^ 63 -> chk64 z = Ok z.
Proof. intros H. unfold chk64. destruct ((_ && _)%bool) eqn:E; [reflexivity|lia]. Qed.
Lemma quot2 p B : - B <= p <= B -> - B <= Z.quot p 2 <= B.
Proof.
  intros H. pose proof (Z.quot_rem' p 2). pose proof (Z.rem_bound_abs p 2 ltac:(lia)). lia.
Qed.
Lemma area_edge_fits B y a b s k :
  0 <= B -> - B <= px a <= B -> - B <= px b <= B -> - B <= py a <= B -> - B <= py b <= B -> - B <= y <= B ->
  0 <= k -> - (k * (8 * (B * B))) <= s <= k * (8 * (B * B)) -> (k + 1) * (8 * (B * B)) < 2 ^ 63 ->
  exists v, area_edge y a b s = Ok v /\ - ((k + 1) * (8 * (B * B))) <= v <= (k + 1) * (8 * (B * B)).
Proof.
  intros HB Ha Hb Hc Hd Hy Hk Hs HK.
  assert (HP : 8 * (B * B) < 2 ^ 63) by nia.
  assert (B < 2 ^ 30) by nia.
  unfold area_edge.
  rewrite (chk64_fits (px b - px a)) by lia. cbn [obind].
  rewrite (chk64_fits (py b - y)) by lia. cbn [obind].
  rewrite (chk64_fits (py a - y)) by lia. cbn [obind].
  rewrite (chk64_fits (py b - y + (py a - y))) by lia. cbn [obind].
  set (P := (px b - px a) * (py b - y + (py a - y))).
  assert (HPb : - (8 * (B * B)) <= P <= 8 * (B * B)).
  { assert (U : - (2 * B) <= px b - px a <= 2 * B) by lia.
    assert (V : - (4 * B) <= py b - y + (py a - y) <= 4 * B) by lia.
    unfold P. set (u := px b - px a) in *. set (w := py b - y + (py a - y)) in *. clearbody u w. nia. }
  rewrite (chk64_fits P) by lia. cbn [obind].
  pose proof (quot2 P _ HPb).
  rewrite chk64_fits by nia. eexists; split; [reflexivity|nia].
Qed.
Definition pt_fits (B : Z) (p : point) : Prop := - B <= px p <= B /\ - B <= py p <= B.
Lemma area_loop_fits B y l : forall p s k, 0 <= B -> pt_fits B p -> - B <= y <= B -> Forall (pt_fits B) l ->
  0 <= k -> - (k * (8 * (B * B))) <= s <= k * (8 * (B * B)) -> (k + Z.of_nat (length l)) * (8 * (B * B)) < 2 ^ 63 ->
  exists v q, area_loop y p s l = Ok (v, q) /\ pt_fits B q /\
    - ((k + Z.of_nat (length l)) * (8 * (B * B))) <= v <= (k + Z.of_nat (length l)) * (8 * (B * B)).
Proof.
  induction l as [|q l IH]; intros p s k HB Hp Hy Hl Hk Hs HK.
  - exists s, p. split; [reflexivity|]. split; [exact Hp|]. cbn [length]. lia.
  - inversion Hl as [|? ? Hq Hl']; subst. cbn [area_loop]. cbn [length] in *.
    assert (HBB : 0 <= 8 * (B * B)) by nia.
    assert (E : exists v, (if px p =? px q then Ok s else area_edge y p q s) = Ok v /\
      - ((k + 1) * (8 * (B * B))) <= v <= (k + 1) * (8 * (B * B))).
    { destruct (px p =? px q); [exists s; split; [reflexivity|nia]|].
      destruct Hp, Hq. apply area_edge_fits; try assumption; try nia. }
    destruct E as [v [-> Hv]]. cbn [obind].
    destruct (IH q v (k + 1) HB Hq Hy Hl' ltac:(lia) Hv ltac:(nia)) as [v' [q' [E1 [E2 E3]]]].
    exists v', q'. split; [exact E1|]. split; [exact E2|]. nia.
Qed.
Lemma points_area_fits B l : 0 <= B -> Forall (pt_fits B) l -> Z.of_nat (length l) * (8 * (B * B)) < 2 ^ 63 ->
  exists v, points_area l = Ok v.
Proof.
  intros HB Hl HK. destruct l as [|p l]; [exists 0; reflexivity|]. inversion Hl as [|? ? Hp Hl']; subst. cbn [length] in HK.
  unfold points_area. assert (HBB : 0 <= 8 * (B * B)) by nia.
  destruct (area_loop_fits B (py p) l p 0 0 HB Hp ltac:(apply Hp) Hl' ltac:(lia) ltac:(lia) ltac:(nia)) as [v [q [-> [Hq Hv]]]].
  cbn [obind]. destruct (pt_eqb p q); [eauto|].
  destruct Hp as [Hp1 Hp2], Hq as [Hq1 Hq2].
  destruct (area_edge_fits B (py p) q p v (Z.of_nat (length l))) as [v' [E _]]; try assumption; try nia; eauto.
Qed.
Lemma ctp_coords fx l : forall pt o p, In p (ctp_go fx pt o l) ->
  (px p = fx \/ px p = px pt \/ In (px p) l) /\ (py p = py pt \/ In (py p) l).
Proof.
  induction l as [|c l IH]; intros pt o p; cbn [ctp_go In].
  - destruct (negb _); cbn [In]; intros H; (destruct H as [H|H]; [subst; auto|]); [|contradiction]. destruct H as [H|[]].
    subst. cbn [px py]. auto.
  - intros [H|H]; [subst; auto|]. apply IH in H as [A B].
    destruct o; cbn [pt_set px py] in A, B; destruct A as [A|[A|A]], B as [B|B]; rewrite ?A, ?B in *; auto 10.
Qed.
Lemma ctp_len fx l : forall pt o, (length (ctp_go fx pt o l) <= length l + 2)%nat.
Proof.
  induction l as [|c l IH]; intros pt o; cbn [ctp_go length].
  - destruct (negb _); cbn [length]; lia.
  - specialize (IH (pt_set pt o c) (perp o)). lia.
Qed.
Lemma ring_vertices_fits o hole l B : ring_fits B l -> ring_vertices o hole l <> Overflow.
Proof.
  intros [HF [HB HK]]. unfold ring_vertices.
  destruct (_ || _)%bool eqn:E0; [discriminate|].
  assert (PF : exists v, points_area (compact_to_points l) = Ok v).
  { assert (HBB : 0 <= 8 * (B * B)) by nia.
    apply (points_area_fits B); [exact HB| |].
    - apply Forall_forall. intros p Hp. destruct l as [|x [|y l]]; [contradiction|contradiction|].
      cbn [compact_to_points] in Hp. apply ctp_coords in Hp. cbn [px py] in Hp.
      rewrite Forall_forall in HF. cbn [In] in HF.
      split; apply HF; intuition auto.
    - destruct l as [|x [|y l]]; cbn [compact_to_points length] in *; try nia.
      pose proof (ctp_len x l (mk_pt x y) Horizontal). nia. }
  destruct PF as [v PF]. unfold points_ccw. rewrite PF. cbn [obind].
  destruct (compact_to_points l) as [|p0 [|p1 [|p2 rest]]]; try discriminate.
  destruct (igs_go _ _ _ _ _ _ _ _); discriminate.
Qed.
Lemma poly_vertices_fits o hole p B : ring_fits B (p_outer p) -> Forall (ring_fits B) (p_holes p) ->
  poly_vertices o hole p <> Overflow.
Proof.
  intros HO HH. unfold poly_vertices.
  pose proof (ring_vertices_fits o hole _ B HO) as R.
  destruct (ring_vertices o hole (p_outer p)) as [V| |]; [|contradiction|discriminate]. cbn [obind].
  assert (M : map_outcome (ring_vertices o (negb hole)) (p_holes p) <> Overflow).
  { induction HH as [|h hs H1 H2 IH]; [discriminate|]. cbn [map_outcome].
    pose proof (ring_vertices_fits o (negb hole) h B H1) as R1.
    destruct (ring_vertices o (negb hole) h) as [V'| |]; [|contradiction|discriminate]. cbn [obind].
    destruct (map_outcome _ hs); [discriminate|contradiction|discriminate]. }
  destruct (map_outcome _ (p_holes p)); [discriminate|contradiction|discriminate].
Qed.

(* insertion into a set *)
Lemma ps_insert_poly_spec s p hole : ps_ok s -> poly_ok p ->
  match ps_insert_poly s p hole with
  | Ok s' => ps_ok s' /\ ps_orient s' = ps_orient s /\
      forall x y, wind (ps_orient s) (ps_data s') x y =
        wind (ps_orient s) (ps_data s) x y + (if hole then -1 else 1) * poly_count p x y
  | Overflow => True
  | Undefined => False
  end.
Proof.
  intros Hs Hp. unfold ps_insert_poly. pose proof (poly_vertices_spec (ps_orient s) hole p Hp) as K.
  destruct (poly_vertices (ps_orient s) hole p) as [V| |]; cbn [obind]; try exact K.
  destruct K as [K1 [K2 K3]].
  destruct (ps_insert_range_spec s V (ps_orient s) Hs K1 K2) as [A [B [C _]]].
  split; [exact A|]. split; [exact B|]. intros x y. rewrite C, K3. destruct hole; reflexivity.
Qed.
