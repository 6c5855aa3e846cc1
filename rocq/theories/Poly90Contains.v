(* contains for polygon_90, and the conversions between coordinates and points. *)
From Verif Require Import Base Units Outcome Scan90Spec Poly90Spec Poly90Model Poly90Proofs PolyCycle Poly90Vertices.
From Verif Require Import Set90Spec Set90Model GeoSpec IvlModel IvlProofs RectModel RectProofs SegModel SegProofs PolySpec PolyModel PolyArea PolyEdge PolyContains.

(* ---------- the loop ---------- *)
Definition vfull (p : point) (e : point * point) : Z :=
  let (a, b) := e in if (px a =? px b) && (px a <=? px p) && (Z.min (py a) (py b) <? py p) && (py p <? Z.max (py a) (py b)) then 1 else 0.
Definition vhalf (p : point) (e : point * point) : Z :=
  let (a, b) := e in if (px a =? px b) && (px a <=? px p) && ((py p =? Z.min (py a) (py b)) || (py p =? Z.max (py a) (py b))) then (if py a <? py b then 1 else -1) else 0.
Definition touched (p : point) (e : point * point) : bool :=
  let (a, b) := e in
  if px a =? px b then (px a =? px p) && (Z.min (py a) (py b) <? py p) && (py p <? Z.max (py a) (py b))
  else (Z.min (px a) (px b) <=? px p) && (px p <=? Z.max (px a) (px b)) && (py a =? py p).
Lemma c90_edge_eq p a b : c90_edge p a b = if touched p (a, b) then None else Some (vfull p (a, b), vhalf p (a, b)).
Proof.
  unfold c90_edge, touched, vfull, vhalf. destruct (Z.eqb_spec (px a) (px b)) as [V|V]; cbn [andb].
  - destruct (Z.gtb_spec (px a) (px p)) as [G|G].
    + replace (px a =? px p) with false by lia. replace (px a <=? px p) with false by lia. reflexivity.
    + replace (px a <=? px p) with true by lia. cbn [andb].
      replace ((py p >? Z.min (py a) (py b)) && (py p <? Z.max (py a) (py b))) with ((Z.min (py a) (py b) <? py p) && (py p <? Z.max (py a) (py b))) by lia.
      destruct ((Z.min (py a) (py b) <? py p) && (py p <? Z.max (py a) (py b))) eqn:B.
      * destruct (px a =? px p) eqn:X; cbn [andb]; rewrite ?B; reflexivity.
      * destruct (px a =? px p) eqn:X; cbn [andb]; rewrite ?B; reflexivity.
  - replace (px p >=? Z.min (px a) (px b)) with (Z.min (px a) (px b) <=? px p) by lia.
    destruct (_ && _ && _); reflexivity.
Qed.
Lemma land1 z : negb (Z.land z 1 =? 0) = Z.odd z.
Proof. change 1 with (Z.ones 1). rewrite Z.land_ones by lia. change (2 ^ 1) with 2. rewrite Zmod_odd. destruct (Z.odd z); reflexivity. Qed.
Lemma c90_loop_spec p touch f l : forall a full half,
  ((exists e, In e (pedges ((a :: l) ++ [f])) /\ touched p e = true) -> c90_loop p touch f full half (a :: l) = touch) /\
  (~ (exists e, In e (pedges ((a :: l) ++ [f])) /\ touched p e = true) -> c90_loop p touch f full half (a :: l) =
    Z.odd (full + zsum (vfull p) (pedges ((a :: l) ++ [f])) + Z.shiftr (half + zsum (vhalf p) (pedges ((a :: l) ++ [f]))) 1)).
Proof.
  induction l as [|b l IH]; intros a full half.
  - cbn [c90_loop app pedges]. rewrite c90_edge_eq. rewrite !zsum_cons. unfold zsum; cbn [fold_right]. rewrite !Z.add_0_r. split.
    + intros [e [[<-|[]] T]]. rewrite T. reflexivity.
    + intros N. destruct (touched p (a, f)) eqn:T; [contradiction N; eexists; split; [left; reflexivity|exact T]|]. apply land1.
  - change (pedges ((a :: b :: l) ++ [f])) with ((a, b) :: pedges ((b :: l) ++ [f])). rewrite !zsum_cons.
    change (c90_loop p touch f full half (a :: b :: l)) with
      (match c90_edge p a b with None => touch | Some (u, v) => c90_loop p touch f (full + u) (half + v) (b :: l) end).
    rewrite c90_edge_eq. destruct (touched p (a, b)) eqn:T.
    + split; [reflexivity|]. intros N. contradiction N. eexists; split; [left; reflexivity|exact T].
    + destruct (IH b (full + vfull p (a, b)) (half + vhalf p (a, b))) as [A B]. split.
      * intros [e [[<-|I] T2]]; [congruence|]. apply A. eauto.
      * intros N. rewrite !Z.add_assoc. apply B. intros [e [I T2]]. apply N. exists e. split; [right; exact I|exact T2].
Qed.
Lemma points_contains_90_loop l p touch : l <> [] ->
  ((exists e, In e (cyc_edges l) /\ touched p e = true) -> points_contains_90 l p touch = touch) /\
  (~ (exists e, In e (cyc_edges l) /\ touched p e = true) ->
     points_contains_90 l p touch = Z.odd (zsum (vfull p) (cyc_edges l) + Z.shiftr (zsum (vhalf p) (cyc_edges l)) 1)).
Proof.
  destruct l as [|f t]; [congruence|]. intros _. rewrite cyc_pedges. unfold points_contains_90.
  destruct (c90_loop_spec p touch f t f 0 0) as [A B]. split; [exact A|]. intros N. rewrite (B N). rewrite !Z.add_0_l. reflexivity.
Qed.

(* ---------- cycles of horizontal and vertical edges of positive length ---------- *)
(* every vertex ends a horizontal edge *)
Definition h_end (l : list point) : Prop := forall v, In v l -> exists e, In e (cyc_edges l) /\ px (fst e) <> px (snd e) /\ (fst e = v \/ snd e = v).
Lemma touched_iff l p : rectilinear l -> no_zero_edge l -> h_end l ->
  ((exists e, In e (cyc_edges l) /\ touched p e = true) <-> on_curve l p).
Proof.
  intros R Z0 HE. unfold rectilinear, no_zero_edge in *. rewrite Forall_forall in R, Z0. split.
  - intros [[a b] [I T]]. exists (a, b). split; [exact I|]. specialize (R _ I). unfold axis_edge, touched in *. cbn [fst snd] in *.
    rewrite on_edge_box, sd_eq. destruct (Z.eqb_spec (px a) (px b)) as [V|V].
    + assert (px a = px p) by lia. rewrite <- V. split; [|lia]. nia.
    + destruct R as [R|R]; [contradiction|]. rewrite <- R. split; [nia|lia].
  - intros [[a b] [I O]]. pose proof (R _ I) as RA. pose proof (Z0 _ I) as NZ. unfold axis_edge in RA. cbn [fst snd] in RA, NZ.
    rewrite on_edge_box in O. destruct O as [_ [O1 O2]].
    destruct (Z.eq_dec (px a) (px b)) as [V|V].
    + destruct (Z_lt_dec (Z.min (py a) (py b)) (py p)) as [Y1|Y1]; [destruct (Z_lt_dec (py p) (Z.max (py a) (py b))) as [Y2|Y2]|].
      * exists (a, b). split; [exact I|]. unfold touched. destruct (Z.eqb_spec (px a) (px b)); lia.
      * assert (P : exists v, In v l /\ v = p).
        { destruct (cyc_in _ _ I) as [I1 I2]. cbn [fst snd] in I1, I2. destruct (Z_le_gt_dec (py a) (py b)); [exists b|exists a]; (split; [assumption|]); destruct p as [u w], a as [u1 w1], b as [u2 w2]; cbn [px py] in *; f_equal; lia. }
        destruct P as [v [Iv ->]]. destruct (HE p Iv) as [[c d] [I2 [N E]]]. exists (c, d). split; [exact I2|].
        pose proof (R _ I2) as RC. unfold axis_edge, touched in *. cbn [fst snd] in *. destruct RC as [RC|RC]; [contradiction|]. destruct (Z.eqb_spec (px c) (px d)); [contradiction|]. destruct E as [E|E]; subst; lia.
      * assert (P : exists v, In v l /\ v = p).
        { destruct (cyc_in _ _ I) as [I1 I2]. cbn [fst snd] in I1, I2. destruct (Z_le_gt_dec (py a) (py b)); [exists a|exists b]; (split; [assumption|]); destruct p as [u w], a as [u1 w1], b as [u2 w2]; cbn [px py] in *; f_equal; lia. }
        destruct P as [v [Iv ->]]. destruct (HE p Iv) as [[c d] [I2 [N E]]]. exists (c, d). split; [exact I2|].
        pose proof (R _ I2) as RC. unfold axis_edge, touched in *. cbn [fst snd] in *. destruct RC as [RC|RC]; [contradiction|]. destruct (Z.eqb_spec (px c) (px d)); [contradiction|]. destruct E as [E|E]; subst; lia.
    + exists (a, b). split; [exact I|]. unfold touched. destruct RA as [RA|RA]; [contradiction|]. destruct (Z.eqb_spec (px a) (px b)); [contradiction|]. lia.
Qed.
(* the signed lower and upper ends on the ray *)
Definition slow (p : point) (e : point * point) : Z :=
  let (a, b) := e in if (px a =? px b) && (px a <=? px p) && (py p =? Z.min (py a) (py b)) then (if py a <? py b then 1 else -1) else 0.
Definition shigh (p : point) (e : point * point) : Z :=
  let (a, b) := e in if (px a =? px b) && (px a <=? px p) && (py p =? Z.max (py a) (py b)) then (if py a <? py b then 1 else -1) else 0.
Lemma points_contains_90_spec l p touch : l <> [] -> rectilinear l -> no_zero_edge l -> h_end l ->
  (on_curve l p -> points_contains_90 l p touch = touch) /\
  (~ on_curve l p -> points_contains_90 l p touch = Z.odd (winding_number l (px p) (py p))).
Proof.
  intros NE R Z0 HE. rewrite <- (touched_iff l p R Z0 HE). destruct (points_contains_90_loop l p touch NE) as [A B].
  split; [exact A|]. intros N. rewrite (B N). rewrite (touched_iff l p R Z0 HE) in N.
  rewrite winding_left by exact R. unfold rectilinear, no_zero_edge in *. rewrite Forall_forall in R, Z0.
  assert (NO : forall a b, In (a, b) (cyc_edges l) -> ~ on_edge (a, b) p) by (intros a b I O; apply N; exists (a, b); split; assumption).
  assert (H1 : zsum (vhalf p) (cyc_edges l) = zsum (slow p) (cyc_edges l) + zsum (shigh p) (cyc_edges l)).
  { rewrite <- zsum_add. apply zsum_ext. intros [a b] I. specialize (Z0 _ I). unfold vhalf, slow, shigh. cbn [fst snd] in Z0.
    destruct ((px a =? px b) && (px a <=? px p)) eqn:V; cbn [andb]; [|reflexivity].
    assert (Y : py a <> py b). { intros Y. apply Z0. destruct a as [u w], b as [u' w']; cbn [px py] in *. f_equal; lia. }
    destruct (Z.eqb_spec (py p) (Z.min (py a) (py b))), (Z.eqb_spec (py p) (Z.max (py a) (py b))); cbn [orb]; try lia. }
  assert (H2 : zsum (shigh p) (cyc_edges l) = zsum (slow p) (cyc_edges l)).
  { assert (T : zsum (fun e => shigh p e + - slow p e) (cyc_edges l) = 0).
    { rewrite <- (cyc_telescope (fun q => b2z ((px q <=? px p) && (py q =? py p))) l). apply zsum_ext. intros [a b] I.
      pose proof (R _ I) as RA. pose proof (NO _ _ I) as O. rewrite on_edge_box, sd_eq in O. specialize (Z0 _ I). unfold axis_edge in RA. cbn [fst snd] in *.
      unfold shigh, slow. destruct (Z.eqb_spec (px a) (px b)) as [V|V]; cbn [andb].
      - rewrite <- V. destruct (px a <=? px p) eqn:X; cbn [andb]; [|reflexivity].
        assert (Y : py a <> py b). { intros Y. apply Z0. destruct a as [u w], b as [u' w']; cbn [px py] in *. f_equal; lia. }
        unfold b2z. destruct (Z.ltb_spec (py a) (py b)) as [U|U]; [rewrite Z.min_l, Z.max_r by lia|rewrite Z.min_r, Z.max_l by lia];
        rewrite (Z.eqb_sym (py p)), (Z.eqb_sym (py p)); destruct (py a =? py p), (py b =? py p); reflexivity.
      - destruct RA as [RA|RA]; [contradiction|]. rewrite <- RA. destruct (Z.eqb_spec (py a) (py p)) as [Y|Y]; [|rewrite !andb_false_r; reflexivity].
        rewrite !andb_true_r. assert (W : (px a <=? px p) = (px b <=? px p)).
        { destruct (Z.leb_spec (px a) (px p)), (Z.leb_spec (px b) (px p)); try reflexivity; exfalso; apply O; (split; [nia|lia]). }
        rewrite W. unfold b2z. destruct (px b <=? px p); reflexivity. }
    rewrite zsum_add, zsum_opp in T. lia. }
  rewrite H1, H2. set (K := zsum (slow p) (cyc_edges l)).
  assert (SH : Z.shiftr (K + K) 1 = K). { rewrite Z.shiftr_div_pow2 by lia. change (2 ^ 1) with 2. replace (K + K) with (K * 2) by ring. apply Z.div_mul. lia. }
  rewrite SH. unfold K. rewrite <- zsum_add. apply odd_sum_ext. intros [a b] I.
  pose proof (R _ I) as RA. specialize (Z0 _ I). unfold axis_edge in RA. cbn [fst snd] in *.
  unfold vfull, slow, crossing_left. destruct (Z.eqb_spec (px a) (px b)) as [V|V]; cbn [andb]; [|reflexivity].
  destruct (px a <=? px p) eqn:X; cbn [andb]; [|reflexivity].
  assert (Y : py a <> py b). { intros Y. apply Z0. destruct a as [u w], b as [u' w']; cbn [px py] in *. f_equal; lia. }
  destruct (Z.ltb_spec (py a) (py b)) as [U|U]; [rewrite Z.min_l, Z.max_r by lia|rewrite Z.min_r, Z.max_l by lia].
  - replace ((py b <=? py p) && (py p <? py a)) with false by lia.
    destruct (Z.ltb_spec (py a) (py p)), (Z.ltb_spec (py p) (py b)), (Z.eqb_spec (py p) (py a)), (Z.leb_spec (py a) (py p)); cbn [andb]; try lia; reflexivity.
  - destruct (Z.ltb_spec (py b) (py p)), (Z.ltb_spec (py p) (py a)), (Z.eqb_spec (py p) (py b)), (Z.leb_spec (py b) (py p)), (Z.leb_spec (py a) (py p)), (Z.ltb_spec (py p) (py b)); cbn [andb]; try lia; reflexivity.
Qed.

(* ---------- coordinate lists ---------- *)
Lemma rp_h_end fx cs q v : In v (rp fx cs) -> exists e, In e (pedges (rp fx cs ++ [q])) /\ py (fst e) = py (snd e) /\ (fst e = v \/ snd e = v).
Proof.
  induction cs as [|[x y] cs IH]; [contradiction|].
  set (x' := match cs with [] => fx | (x', _) :: _ => x' end).
  assert (E : rp fx ((x, y) :: cs) = mk_pt x y :: mk_pt x' y :: rp fx cs) by (destruct cs as [|[u w] cs]; reflexivity).
  rewrite E. clearbody x'. intros I.
  assert (P0 : exists t, pedges ((mk_pt x y :: mk_pt x' y :: rp fx cs) ++ [q]) = (mk_pt x y, mk_pt x' y) :: t /\ forall e, In e (pedges (rp fx cs ++ [q])) -> In e t).
  { exists (pedges (mk_pt x' y :: (rp fx cs ++ [q]))). split; [reflexivity|]. intros e. generalize (rp fx cs ++ [q]). intros [|r k] He; [exact He|]. right. exact He. }
  destruct P0 as [t [-> Sub]]. destruct I as [<-|[<-|I]].
  - eexists; split; [left; reflexivity|]. split; [reflexivity|left; reflexivity].
  - eexists; split; [left; reflexivity|]. split; [reflexivity|right; reflexivity].
  - destruct (IH I) as [e [E1 E2]]. exists e. split; [right; apply Sub, E1|exact E2].
Qed.
Lemma ctp_ring_points l : Nat.Even (length l) -> no_zero_edge (ring_points l) -> compact_to_points l = ring_points l.
Proof.
  intros [n L] Z0. destruct (even_flat n l L) as [cs [-> _]]. destruct cs as [|[x y] cs]; [reflexivity|].
  change (flat ((x, y) :: cs)) with (x :: y :: flat cs) in *.
  assert (E : ring_points (x :: y :: flat cs) = rp x ((x, y) :: cs)) by exact (ring_points_flat x ((x, y) :: cs)).
  rewrite E in *. cbn [compact_to_points]. apply ctp_flat. intros F.
  (* the last horizontal edge has positive length *)
  assert (K : forall ds u w p, fst (last ds (u, w)) = x -> exists q, In (q, q) (pedges (rp x ((u, w) :: ds) ++ [p]))).
  { induction ds as [|[u' w'] ds IH]; intros u w p H.
    - cbn [last fst] in H. subst u. exists (mk_pt x w). cbn [rp app pedges]. left. reflexivity.
    - assert (LL : last ((u', w') :: ds) (u, w) = last ds (u', w')) by (destruct ds as [|c ds]; [reflexivity|exact (last_dflt ds c (u, w) (u', w'))]).
      rewrite LL in H. destruct (IH u' w' p H) as [q Hq]. exists q. cbn [rp app] in Hq |- *. destruct ds as [|[u2 w2] ds]; right; right; exact Hq. }
  destruct (K cs x y (mk_pt x y) F) as [q Hq]. unfold no_zero_edge in Z0. rewrite Forall_forall in Z0.
  assert (HD : exists t, rp x ((x, y) :: cs) = mk_pt x y :: t) by (cbn [rp]; destruct cs as [|[? ?] ?]; eauto).
  destruct HD as [t HD]. rewrite HD, cyc_pedges in Z0. rewrite HD in Hq. exact (Z0 _ Hq eq_refl).
Qed.
Lemma ring_rectilinear l : Nat.Even (length l) -> no_zero_edge (ring_points l) -> rectilinear (ring_points l).
Proof. intros E Z0. rewrite <- (ctp_ring_points l E Z0). apply ctp_axis. Qed.
Lemma ring_h_end l : Nat.Even (length l) -> no_zero_edge (ring_points l) -> h_end (ring_points l).
Proof.
  intros [n L] Z0. destruct (even_flat n l L) as [cs [-> _]]. destruct cs as [|[x y] cs]; [intros v []|].
  change (flat ((x, y) :: cs)) with (x :: y :: flat cs) in *.
  assert (E : ring_points (x :: y :: flat cs) = rp x ((x, y) :: cs)) by exact (ring_points_flat x ((x, y) :: cs)).
  rewrite E in *. intros v Iv.
  assert (HD : exists t, rp x ((x, y) :: cs) = mk_pt x y :: t) by (cbn [rp]; destruct cs as [|[? ?] ?]; eauto).
  destruct (rp_h_end x ((x, y) :: cs) (mk_pt x y) v Iv) as [e [I [Y V]]].
  destruct HD as [t HD]. unfold no_zero_edge in Z0. rewrite HD in *. rewrite cyc_pedges in *. exists e. split; [exact I|]. split; [|exact V].
  intros X. rewrite Forall_forall in Z0. apply (Z0 e I). destruct e as [[a1 a2] [b1 b2]]; cbn [fst snd px py] in *. congruence.
Qed.
Lemma contains_90_spec l p touch : Nat.Even (length l) -> no_zero_edge (ring_points l) ->
  (on_curve (ring_points l) p -> contains_90 l p touch = touch) /\
  (~ on_curve (ring_points l) p -> contains_90 l p touch = Z.odd (winding_number (ring_points l) (px p) (py p))).
Proof.
  intros E Z0. unfold contains_90. rewrite (ctp_ring_points l E Z0).
  destruct (ring_points l) as [|f t] eqn:RP; [split; [intros [e [[] _]]|reflexivity]|]. rewrite <- RP in *.
  apply points_contains_90_spec; [congruence|apply ring_rectilinear; assumption|exact Z0|apply ring_h_end; assumption].
Qed.

(* ---------- round trips ---------- *)
Lemma ptc_rp fx cs : points_to_compact (rp fx cs) = flat cs.
Proof.
  unfold points_to_compact. induction cs as [|[x y] cs IH]; [reflexivity|].
  assert (E : rp fx ((x, y) :: cs) = mk_pt x y :: mk_pt (match cs with [] => fx | (x', _) :: _ => x' end) y :: rp fx cs) by (destruct cs as [|[u w] cs']; reflexivity).
  rewrite E. cbn [ptc_go pt_get perp px py]. rewrite IH. reflexivity.
Qed.
Lemma compact_round_trip l x0 y0 m xn yn : Nat.Even (length l) -> l = x0 :: y0 :: m ++ [xn; yn] -> xn <> x0 ->
  compact_to_points l = ring_points l /\ points_to_compact (compact_to_points l) = l.
Proof.
  intros [n L] E N. destruct (even_flat n l L) as [cs [-> _]]. destruct cs as [|[x y] cs]; [discriminate|].
  change (flat ((x, y) :: cs)) with (x :: y :: flat cs) in *.
  assert (EQ : x = x0 /\ y = y0 /\ flat cs = m ++ [xn; yn]) by (injection E as -> -> E2; auto). destruct EQ as [-> [-> E2]]. clear E.
  assert (R : ring_points (x0 :: y0 :: flat cs) = rp x0 ((x0, y0) :: cs)) by exact (ring_points_flat x0 ((x0, y0) :: cs)).
  assert (LS : fst (last cs (x0, y0)) <> x0).
  { destruct cs as [|c cs'] using rev_ind; [destruct m; discriminate|]. destruct c as [u w]. rewrite last_app1. cbn [fst].
    rewrite flat_app in E2. change (flat [(u, w)]) with [u; w] in E2.
    assert (E3 : removelast (removelast (flat cs' ++ [u; w])) = removelast (removelast (m ++ [xn; yn])) /\ u = xn).
    { rewrite E2. split; [reflexivity|].
      assert (A : forall (k : list Z) a b, nth (length (k ++ [a; b]) - 2) (k ++ [a; b]) 0 = a).
      { intros k a b. rewrite app_length. cbn [length]. replace (length k + 2 - 2)%nat with (length k) by lia. rewrite app_nth2 by lia. rewrite Nat.sub_diag. reflexivity. }
      rewrite <- (A (flat cs') u w), E2, A. reflexivity. }
    destruct E3 as [_ ->]. exact N. }
  rewrite R. cbn [compact_to_points]. rewrite (ctp_flat x0 cs x0 y0 LS). split; [reflexivity|].
  rewrite ptc_rp. reflexivity.
Qed.
(* points to coordinates and back *)
Fixpoint cs_of (l : list point) : list (Z * Z) := match l with a :: b :: t => (px a, py b) :: cs_of t | _ => [] end.
Lemma even_ind2 (P : list point -> Prop) : P [] -> (forall a b l, Nat.Even (length l) -> P l -> P (a :: b :: l)) -> forall l, Nat.Even (length l) -> P l.
Proof.
  intros H0 H2 l [n L]. revert l L. induction n as [|n IH]; intros l L.
  - destruct l; [exact H0|discriminate].
  - destruct l as [|a [|b l]]; cbn [length] in L; try lia. apply H2; [exists n; lia|apply IH; lia].
Qed.
Lemma flat_cs_of l : Nat.Even (length l) -> flat (cs_of l) = points_to_compact l.
Proof.
  revert l. apply even_ind2; [reflexivity|]. intros a b l _ IH. cbn [cs_of]. change (flat ((px a, py b) :: cs_of l)) with (px a :: py b :: flat (cs_of l)).
  rewrite IH. reflexivity.
Qed.
Lemma rp_cs_of l : Nat.Even (length l) -> forall q, alt_edges Horizontal (pedges (l ++ [q])) -> rp (px q) (cs_of l) = l.
Proof.
  revert l. apply (even_ind2 (fun l => forall q, alt_edges Horizontal (pedges (l ++ [q])) -> rp (px q) (cs_of l) = l)); [reflexivity|].
  intros a b l EL IH q A. cbn [cs_of].
  assert (E : rp (px q) ((px a, py b) :: cs_of l) = mk_pt (px a) (py b) :: mk_pt (match cs_of l with [] => px q | (x', _) :: _ => x' end) (py b) :: rp (px q) (cs_of l)) by (destruct (cs_of l) as [|[u w] cs']; reflexivity).
  rewrite E. destruct l as [|c l].
  - cbn [app pedges alt_edges cs_of] in A |- *. destruct A as [A1 [A2 _]]. destruct a as [a1 a2], b as [b1 b2]; cbn [px py] in *. cbn [rp]. congruence.
  - destruct l as [|d l]; [destruct EL as [k EL]; cbn [length] in EL; lia|].
    cbn [app pedges alt_edges] in A. destruct A as [A1 [A2 A3]]. rewrite (IH q); [|exact A3]. cbn [cs_of].
    destruct a as [a1 a2], b as [b1 b2]; cbn [px py] in *. congruence.
Qed.
Lemma ring_of_points_h l : alternates Horizontal l -> ring_points (points_to_compact l) = l.
Proof.
  intros [E A]. destruct l as [|f t]; [reflexivity|]. rewrite cyc_pedges in A.
  pose proof (rp_cs_of (f :: t) E f A) as R. rewrite <- (flat_cs_of (f :: t) E).
  destruct t as [|s t]; [destruct E as [k E]; cbn [length] in E; lia|]. cbn [cs_of] in *.
  change (flat ((px f, py s) :: cs_of t)) with (px f :: py s :: flat (cs_of t)).
  transitivity (rp (px f) ((px f, py s) :: cs_of t)); [|exact R]. exact (ring_points_flat (px f) ((px f, py s) :: cs_of t)).
Qed.
Lemma ptc_length l : length (points_to_compact l) = length l.
Proof. unfold points_to_compact. generalize Horizontal. induction l as [|a l IH]; intros o; [reflexivity|]. cbn [ptc_go length]. f_equal. apply IH. Qed.
Lemma points_round_trip_h l : alternates Horizontal l -> no_zero_edge l -> compact_to_points (points_to_compact l) = l.
Proof.
  intros A Z0. pose proof (ring_of_points_h l A) as R. transitivity (ring_points (points_to_compact l)); [|exact R].
  apply ctp_ring_points; [rewrite ptc_length; apply A|]. rewrite R. exact Z0.
Qed.
Lemma ptc_shift l : forall o q, alt_edges (perp o) (pedges (l ++ [q])) -> ptc_go o l = ptc_go o (tl (l ++ [q])).
Proof.
  induction l as [|a l IH]; intros o q A; [destruct o; reflexivity|]. cbn [app tl].
  assert (H : exists b t, l ++ [q] = b :: t) by (destruct l; cbn [app]; eauto). destruct H as [b [t H]].
  cbn [app] in A. rewrite H in A. cbn [pedges] in A. rewrite H.
  cbn [ptc_go]. f_equal.
  - destruct o; cbn [perp alt_edges pt_get] in *; tauto.
  - rewrite (IH (perp o) q).
    + rewrite H. reflexivity.
    + rewrite H. cbn [pedges]. destruct o; cbn [perp alt_edges] in *; tauto.
Qed.
Lemma alt_rotate f t : alternates Vertical (f :: t) -> alternates Horizontal (t ++ [f]).
Proof.
  intros [E A]. split; [rewrite app_length; cbn [length] in *; replace (length t + 1)%nat with (S (length t)) by lia; exact E|].
  destruct t as [|s t]; [destruct E as [k E]; cbn [length] in E; lia|]. rewrite cyc_pedges in A.
  change ((s :: t) ++ [f]) with (s :: (t ++ [f])). rewrite cyc_pedges.
  change ((s :: t ++ [f]) ++ [s]) with ((s :: t ++ [f]) ++ [s]).
  change ((f :: s :: t) ++ [f]) with (f :: (s :: t ++ [f])) in A. cbn [pedges alt_edges] in A. destruct A as [A1 A2].
  replace ((s :: t ++ [f]) ++ [s]) with ((s :: t) ++ [f; s]) by (cbn [app]; rewrite <- app_assoc; reflexivity).
  rewrite pedges_snoc.
  assert (K : forall es o e, alt_edges o es -> (if Nat.even (length es) then alt_edges o [e] else alt_edges (perp o) [e]) -> alt_edges o (es ++ [e])).
  { induction es as [|[u v] es IH]; intros o e H1 H2; [exact H2|]. destruct e as [e1 e2].
    cbn [app alt_edges] in *. destruct o; cbn [perp] in *; destruct H1 as [H1 H3]; (split; [exact H1|]); apply IH; try exact H3;
    cbn [length] in H2; rewrite Nat.even_succ, <- Nat.negb_even in H2; destruct (Nat.even (length es)); exact H2. }
  apply K; [exact A2|].
  assert (LN : forall k : list point, length (pedges (f :: k)) = length k).
  { intros k. generalize f. induction k as [|b k IH]; intros a0; [reflexivity|]. cbn [pedges length]. f_equal. apply IH. }
  assert (LE : length (pedges ((s :: t) ++ [f])) = S (length t)).
  { assert (LN2 : forall (k : list point) a0, length (pedges (a0 :: k)) = length k) by (induction k as [|b k IH]; intros a0; [reflexivity|]; cbn [pedges length]; f_equal; apply IH).
    change ((s :: t) ++ [f]) with (s :: (t ++ [f])). rewrite LN2, app_length. cbn [length]. lia. }
  rewrite LE. destruct E as [k E]. cbn [length] in E. assert (EV : Nat.even (S (length t)) = false).
  { rewrite Nat.even_succ, <- Nat.negb_even. replace (length t) with (2 * (k - 1))%nat by lia. rewrite Nat.even_mul. reflexivity. }
  rewrite EV. cbn [perp alt_edges]. split; [exact A1|exact I].
Qed.
Lemma ptc_rotate f t : alternates Vertical (f :: t) -> points_to_compact (f :: t) = points_to_compact (t ++ [f]).
Proof. intros [E A]. rewrite cyc_pedges in A. unfold points_to_compact. exact (ptc_shift (f :: t) Horizontal f A). Qed.
Lemma nz_rotate f t : no_zero_edge (f :: t) -> no_zero_edge (t ++ [f]).
Proof.
  unfold no_zero_edge. rewrite !Forall_forall. intros Z0 e He. apply Z0. revert He. apply Permutation.Permutation_in. apply cyc_rot.
Qed.
Lemma points_round_trip_v f t : alternates Vertical (f :: t) -> no_zero_edge (f :: t) -> compact_to_points (points_to_compact (f :: t)) = t ++ [f].
Proof.
  intros A Z0. rewrite (ptc_rotate f t A). apply points_round_trip_h; [exact (alt_rotate f t A)|exact (nz_rotate f t Z0)].
Qed.
(* the points of a coordinate list alternate *)
Lemma flat_length cs : length (flat cs) = (2 * length cs)%nat.
Proof. induction cs as [|c cs IH]; [reflexivity|]. unfold flat in *. cbn [flat_map length app] in *. lia. Qed.
Lemma rp_length fx cs : length (rp fx cs) = (2 * length cs)%nat.
Proof.
  induction cs as [|[x y] cs IH]; [reflexivity|].
  change (length (rp fx ((x, y) :: cs))) with (S (S (length (rp fx cs)))). cbn [length]. lia.
Qed.
Lemma rp_alt cs : forall q, alt_edges Horizontal (pedges (rp (px q) cs ++ [q])).
Proof.
  induction cs as [|[x y] cs IH]; intros q; [exact I|].
  assert (E : rp (px q) ((x, y) :: cs) = mk_pt x y :: mk_pt (match cs with [] => px q | (x', _) :: _ => x' end) y :: rp (px q) cs) by (destruct cs as [|[u w] cs']; reflexivity).
  rewrite E. specialize (IH q). destruct cs as [|[x' y'] cs].
  - cbn [rp app pedges alt_edges px py]. auto.
  - assert (E2 : rp (px q) ((x', y') :: cs) = mk_pt x' y' :: mk_pt (match cs with [] => px q | (x', _) :: _ => x' end) y' :: rp (px q) cs) by (destruct cs as [|[u w] cs']; reflexivity).
    rewrite E2 in *. cbn [app] in *. cbn [pedges alt_edges px py] in *. auto.
Qed.
Lemma ring_alternates l : Nat.Even (length l) -> alternates Horizontal (ring_points l).
Proof.
  intros [n L]. destruct (even_flat n l L) as [cs [-> _]]. destruct cs as [|[x y] cs]; [split; [exists 0%nat; reflexivity|exact I]|].
  change (flat ((x, y) :: cs)) with (x :: y :: flat cs) in *.
  assert (E : ring_points (x :: y :: flat cs) = rp x ((x, y) :: cs)) by exact (ring_points_flat x ((x, y) :: cs)). rewrite E.
  split; [rewrite rp_length; eexists; reflexivity|].
  assert (HD : exists t, rp x ((x, y) :: cs) = mk_pt x y :: t) by (cbn [rp]; destruct cs as [|[? ?] ?]; eauto).
  pose proof (rp_alt ((x, y) :: cs) (mk_pt x y)) as A. cbn [px] in A. destruct HD as [t HD]. rewrite HD in *. rewrite cyc_pedges. exact A.
Qed.
