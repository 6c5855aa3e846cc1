(* Correctness of area, winding and vertex iteration of Manhattan polygons. *)
From Verif Require Import Base Units Outcome Scan90Spec VertexLemmas Poly90Spec Poly90Model.

Lemma pt_eqb_iff p q : pt_eqb p q = true <-> p = q.
Proof.
  destruct p as [a b], q as [c d]. unfold pt_eqb. cbn [px py]. split.
  - intros H. f_equal; lia.
  - intros H. injection H as -> ->. lia.
Qed.
Lemma pt_eqb_refl p : pt_eqb p p = true.
Proof. apply pt_eqb_iff. reflexivity. Qed.
Lemma pt_eqb_ne p q : p <> q -> pt_eqb p q = false.
Proof. intros H. destruct (pt_eqb p q) eqn:E; [|reflexivity]. apply pt_eqb_iff in E. contradiction. Qed.

Lemma last_dflt {A : Type} (l : list A) : forall c d d', last (c :: l) d = last (c :: l) d'.
Proof. induction l as [|a l IH]; intros c d d'; [reflexivity|]. exact (IH a d d'). Qed.

(* ---------- rings as lists of coordinate pairs ---------- *)
Definition flat (cs : list (Z * Z)) : list Z := flat_map (fun c => [fst c; snd c]) cs.
Lemma even_flat n : forall l, length l = (2 * n)%nat -> exists cs, l = flat cs /\ length cs = n.
Proof.
  induction n as [|n IH]; intros l H.
  - destruct l; [|discriminate]. exists []. split; reflexivity.
  - destruct l as [|x [|y l]]; cbn [length] in H; try lia. destruct (IH l ltac:(lia)) as [cs [-> L]].
    exists ((x, y) :: cs). split; [reflexivity|]. cbn [length]. lia.
Qed.
(* the points of the pairs; fx is the x coordinate of the last point *)
Fixpoint rp (fx : Z) (cs : list (Z * Z)) : list point :=
  match cs with
  | [] => []
  | (x, y) :: t => mk_pt x y :: mk_pt (match t with [] => fx | (x', _) :: _ => x' end) y :: rp fx t
  end.
Lemma ring_points_flat fx cs : ring_points_from fx (flat cs) = rp fx cs.
Proof.
  induction cs as [|[x y] cs IH]; [reflexivity|]. destruct cs as [|[x' y'] cs]; [reflexivity|].
  change (flat ((x, y) :: (x', y') :: cs)) with (x :: y :: flat ((x', y') :: cs)).
  cbn [rp]. cbn [rp] in IH. rewrite <- IH. reflexivity.
Qed.
Lemma ctp_flat fx cs : forall x y, fst (last cs (x, y)) <> fx ->
  ctp_go fx (mk_pt x y) Horizontal (flat cs) = rp fx ((x, y) :: cs).
Proof.
  induction cs as [|[x' y'] cs IH]; intros x y H.
  - cbn [flat flat_map ctp_go rp px py]. cbn [last fst] in H.
    destruct (Z.eqb_spec x fx); [contradiction|reflexivity].
  - change (flat ((x', y') :: cs)) with (x' :: y' :: flat cs).
    cbn [ctp_go pt_set perp px py]. rewrite IH; [reflexivity|].
    destruct cs as [|c cs]; [exact H|]. rewrite (last_dflt cs c _ (x, y)). exact H.
Qed.

(* ---------- triples of a path ---------- *)
Fixpoint tri {A : Type} (g : point -> point -> point -> A) (l : list point) : list A :=
  match l with
  | a :: t => match t with
              | b :: c :: _ => g a b c :: tri g t
              | _ => []
              end
  | [] => []
  end.
Lemma igs_go_tri o m f s rest : forall p0 p1 p2, last rest p2 <> f ->
  igs_go o m f s p0 p1 p2 rest = Some (tri (evaluate o m) (p0 :: p1 :: p2 :: rest ++ [f; s])).
Proof.
  induction rest as [|p3 rest IH]; intros p0 p1 p2 H.
  - cbn [last] in H. cbn [igs_go igs_tail app tri bind].
    rewrite (pt_eqb_ne f p2) by congruence.
    rewrite !pt_eqb_refl. reflexivity.
  - cbn [igs_go]. rewrite IH.
    + reflexivity.
    + destruct rest as [|p4 rest]; [exact H|]. rewrite (last_dflt rest p4 _ p2). exact H.
Qed.

(* ---------- alternating sums ---------- *)
Section Alt.
Variable f : point -> Z.
(* the sign of the vertex that iterator_geometry_to_set yields *)
Definition csign (p0 p1 p2 : point) : Z :=
  if pt_eqb p1 p2 then 0 else if negb (px p0 =? px p1) then -1 else if negb (py p0 =? py p1) then 1 else 0.
Definition S_sum (l : list point) : Z := zsum (fun z => z) (tri (fun a b c => csign a b c * f b) l).
(* t: sign of the second point *)
Fixpoint T_sum (t : Z) (l : list point) : Z :=
  match l with
  | a :: l' => match l' with b :: _ :: _ => t * f b + T_sum (- t) l' | _ => 0 end
  | [] => 0
  end.
Definition axis (t : Z) (a b : point) : Prop := if t <? 0 then py a = py b else px a = px b.
Fixpoint altpath (t : Z) (l : list point) : Prop :=
  match l with
  | a :: l' => match l' with b :: _ => axis t a b /\ altpath (- t) l' | [] => True end
  | [] => True
  end.
Fixpoint nostall (l : list point) : Prop :=
  match l with
  | a :: l' => match l' with b :: c :: _ => ~ (a = b /\ b = c) /\ nostall l' | _ => True end
  | [] => True
  end.
(* t: sign of the first point *)
Fixpoint endt (t : Z) (l : list point) : Z :=
  match l with
  | a :: l' => match l' with
               | [b] => if pt_eqb a b then t * f a else 0
               | _ => endt (- t) l'
               end
  | [] => 0
  end.
Lemma csign_axis t a b c : t = 1 \/ t = -1 -> axis t a b -> a <> b -> b <> c -> csign a b c = t.
Proof.
  intros T A N1 N2. unfold csign. rewrite (pt_eqb_ne b c N2). unfold axis in A.
  destruct a as [ax ay], b as [bx by_]. cbn [px py] in *.
  destruct T as [-> | ->]; cbn in A.
  - subst bx. rewrite Z.eqb_refl. cbn [negb]. destruct (Z.eqb_spec ay by_); [congruence|reflexivity].
  - subst by_. destruct (Z.eqb_spec ax bx); [congruence|reflexivity].
Qed.
Lemma csign_zero_l a c : csign a a c = 0.
Proof. unfold csign. rewrite !Z.eqb_refl. cbn [negb]. destruct (pt_eqb a c); reflexivity. Qed.
Lemma csign_zero_r a b : csign a b b = 0.
Proof. unfold csign. rewrite pt_eqb_refl. reflexivity. Qed.
Lemma alt_cancel R : forall a b t, t = 1 \/ t = -1 -> altpath t (a :: b :: R) -> nostall (a :: b :: R) ->
  T_sum t (a :: b :: R) - S_sum (a :: b :: R) = (if pt_eqb a b then t * f b else 0) + endt (- t) (a :: b :: R).
Proof.
  induction R as [|c R IH]; intros a b t T A N.
  - unfold S_sum. cbn [T_sum tri zsum fold_right endt]. destruct (pt_eqb a b) eqn:E; [|lia].
    apply pt_eqb_iff in E. subst b. lia.
  - destruct A as [A1 A2]. destruct N as [N1 N2].
    assert (T' : - t = 1 \/ - t = -1) by lia. specialize (IH b c (- t) T' A2 N2).
    change (T_sum t (a :: b :: c :: R)) with (t * f b + T_sum (- t) (b :: c :: R)).
    change (S_sum (a :: b :: c :: R)) with (csign a b c * f b + S_sum (b :: c :: R)).
    change (endt (- t) (a :: b :: c :: R)) with (endt (- - t) (b :: c :: R)).
    destruct (pt_eqb b c) eqn:Ebc.
    + apply pt_eqb_iff in Ebc. subst c. rewrite csign_zero_r.
      rewrite (pt_eqb_ne a b) by (intros ->; apply N1; split; reflexivity). lia.
    + assert (Nbc : b <> c) by (intros ->; rewrite pt_eqb_refl in Ebc; discriminate).
      destruct (pt_eqb a b) eqn:Eab.
      * apply pt_eqb_iff in Eab. subst b. rewrite csign_zero_l. lia.
      * assert (Nab : a <> b) by (intros ->; rewrite pt_eqb_refl in Eab; discriminate).
        rewrite (csign_axis t a b c T A1 Nab Nbc). lia.
Qed.
(* the sum over a ring *)
Fixpoint ring_sum (fx : Z) (cs : list (Z * Z)) : Z :=
  match cs with
  | [] => 0
  | (x, y) :: t => f (mk_pt x y) - f (mk_pt (match t with [] => fx | (x', _) :: _ => x' end) y) + ring_sum fx t
  end.
Lemma T_step t a b c R : T_sum t (a :: b :: c :: R) = t * f b + T_sum (- t) (b :: c :: R).
Proof. reflexivity. Qed.
Lemma T_ring fx cs : forall p q, T_sum (-1) (rp fx cs ++ [p; q]) = ring_sum fx cs - (match rp fx cs with [] => 0 | h :: _ => f h end)
   + (match rp fx cs with [] => 0 | _ => f p end).
Proof.
  induction cs as [|[x y] cs IH]; intros p q; [reflexivity|].
  cbn [rp app]. set (x1 := match cs with [] => fx | (x', _) :: _ => x' end).
  assert (E : forall l : list point, T_sum (-1) (mk_pt x y :: mk_pt x1 y :: l ++ [p; q]) =
    - f (mk_pt x1 y) + (match l with [] => f p | h :: _ => f h + T_sum (-1) (l ++ [p; q]) end)).
  { intros [|h l]; cbn [app].
    - rewrite !T_step. change (T_sum (- - (-1)) [p; q]) with 0. lia.
    - destruct l as [|h2 l]; cbn [app]; rewrite (T_step (-1) (mk_pt x y)), (T_step (- -1) (mk_pt x1 y)); change (- - -1) with (-1); lia. }
  rewrite E. clear E. cbn [ring_sum]. fold x1. specialize (IH p q).
  destruct (rp fx cs) as [|h l] eqn:El.
  - destruct cs as [|[x' y'] cs]; [|discriminate]. cbn [ring_sum]. lia.
  - rewrite IH. lia.
Qed.
Lemma endt_ring fx cs : forall p q t, endt t (rp fx cs ++ [p; q]) = if pt_eqb p q then t * f p else 0.
Proof.
  induction cs as [|[x y] cs IH]; intros p q t; [reflexivity|]. cbn [rp app].
  set (P := mk_pt x y). set (Q := mk_pt _ y).
  transitivity (endt (- - t) (rp fx cs ++ [p; q])); [|rewrite IH; rewrite Z.opp_involutive; reflexivity].
  clear IH. set (l := rp fx cs). clearbody l P Q. destruct l as [|h [|h2 l]]; reflexivity.
Qed.
Lemma ring_alt fx cs : forall p q, py p = py q ->
  (match cs with [] => True | _ => px p = fx end) -> altpath (-1) (rp fx cs ++ [p; q]).
Proof.
  induction cs as [|[x y] cs IH]; intros p q E1 E2; cbn [rp app].
  - cbn [altpath]. unfold axis. cbn. auto.
  - split; [unfold axis; reflexivity|]. change (- -1) with 1.
    destruct cs as [|[x' y'] cs].
    + cbn [rp app altpath]. unfold axis. cbn [Z.ltb Z.compare px py]. auto.
    + specialize (IH p q E1 E2). cbn [rp app] in IH |- *. split; [reflexivity|exact IH].
Qed.
End Alt.

(* ---------- no stalls ---------- *)
Fixpoint mv (l : list Z) : Prop :=
  match l with
  | a :: t => match t with b :: c :: d :: _ => ~ (a = c /\ b = d) /\ mv t | _ => True end
  | [] => True
  end.
Lemma ring_moves_mv l : ring_moves l -> mv l.
Proof.
  induction l as [|a l IH]; intros H; [exact I|]. destruct l as [|b [|c [|d l]]]; try exact I.
  split.
  - intros [-> ->]. apply (H O c d); reflexivity.
  - apply IH. intros j u v A B C D. apply (H (S j) u v); assumption.
Qed.
Lemma nostall_ring fx cs : forall x y p q, mv (flat ((x, y) :: cs)) ->
  fst (last cs (x, y)) <> fx -> snd (last cs (x, y)) <> py p -> nostall (rp fx ((x, y) :: cs) ++ [p; q]).
Proof.
  induction cs as [|[x1 y1] cs IH]; intros x y p q M H1 H2.
  - cbn [last fst snd] in H1, H2. cbn [rp app nostall]. split; [|split; [|exact I]].
    + intros [E _]. apply H1. congruence.
    + intros [E _]. apply H2. rewrite <- E. reflexivity.

  - assert (M1 : ~ (x = x1 /\ y = y1) /\ mv (y :: flat ((x1, y1) :: cs))).
    { change (mv (x :: y :: x1 :: y1 :: flat cs)) in M. exact M. }
    destruct M1 as [M1 M2].
    assert (M3 : mv (flat ((x1, y1) :: cs))).
    { change (mv (y :: x1 :: y1 :: flat cs)) in M2. change (mv (x1 :: y1 :: flat cs)).
      destruct (flat cs) as [|u l]; [exact I|]. apply M2. }
    assert (L : last ((x1, y1) :: cs) (x, y) = last cs (x1, y1)).
    { destruct cs as [|c cs]; [reflexivity|]. exact (last_dflt cs c (x, y) (x1, y1)). }
    rewrite L in H1, H2. specialize (IH x1 y1 p q M3 H1 H2). cbn [rp app] in IH |- *.
    split; [|split].
    + intros [E1 E2]. apply M1. split; congruence.
    + intros [E1 E2]. destruct cs as [|[x2 y2] cs].
      * apply H1. cbn [last fst]. congruence.
      * change (mv (y :: x1 :: y1 :: x2 :: y2 :: flat cs)) in M2. apply (proj1 M2). split; congruence.
    + exact IH.
Qed.

(* ---------- the vertices of a path ---------- *)
Lemma cnt_tri o m u v L : cnt (tri (evaluate o m) L) u v =
  m * S_sum (fun p => b2z ((pt_get p (perp o) <=? u) && (pt_get p o <=? v))) L.
Proof.
  induction L as [|a L IH]; [cbn; lia|]. destruct L as [|b [|c L]]; [cbn; lia|cbn; lia|].
  change (tri (evaluate o m) (a :: b :: c :: L)) with (evaluate o m a b c :: tri (evaluate o m) (b :: c :: L)).
  cbn [cnt]. rewrite IH. set (F := fun p => b2z _).
  change (S_sum F (a :: b :: c :: L)) with (csign a b c * F b + S_sum F (b :: c :: L)).
  unfold evaluate, vx, vy, vc. cbn [fst snd]. fold (csign a b c). subst F. cbn beta.
  destruct ((pt_get b (perp o) <=? u) && (pt_get b o <=? v)); cbn [b2z]; lia.
Qed.
Lemma col_tri o m u L : col_total (tri (evaluate o m) L) u = m * S_sum (fun p => b2z (pt_get p (perp o) =? u)) L.
Proof.
  induction L as [|a L IH]; [cbn; lia|]. destruct L as [|b [|c L]]; [cbn; lia|cbn; lia|].
  change (tri (evaluate o m) (a :: b :: c :: L)) with (evaluate o m a b c :: tri (evaluate o m) (b :: c :: L)).
  cbn [col_total]. rewrite IH. set (F := fun p => b2z _).
  change (S_sum F (a :: b :: c :: L)) with (csign a b c * F b + S_sum F (b :: c :: L)).
  unfold evaluate, vx, vy, vc. cbn [fst snd]. fold (csign a b c). subst F. cbn beta.
  destruct (pt_get b (perp o) =? u); cbn [b2z]; lia.
Qed.
Lemma row_tri o m u L : row_total (tri (evaluate o m) L) u = m * S_sum (fun p => b2z (pt_get p o =? u)) L.
Proof.
  induction L as [|a L IH]; [cbn; lia|]. destruct L as [|b [|c L]]; [cbn; lia|cbn; lia|].
  change (tri (evaluate o m) (a :: b :: c :: L)) with (evaluate o m a b c :: tri (evaluate o m) (b :: c :: L)).
  cbn [row_total]. rewrite IH. set (F := fun p => b2z _).
  change (S_sum F (a :: b :: c :: L)) with (csign a b c * F b + S_sum F (b :: c :: L)).
  unfold evaluate, vx, vy, vc. cbn [fst snd]. fold (csign a b c). subst F. cbn beta.
  destruct (pt_get b o =? u); cbn [b2z]; lia.
Qed.
Lemma tri_in {A : Type} (g : point -> point -> point -> A) L v : In v (tri g L) ->
  exists a b c, v = g a b c /\ In a L /\ In b L /\ In c L.
Proof.
  induction L as [|a L IH]; [intros []|]. destruct L as [|b [|c L]]; [intros []|intros []|].
  intros [E|E].
  - exists a, b, c. split; [auto|]. cbn [In]. repeat split; auto.
  - destruct (IH E) as [x [y [z [E1 [E2 [E3 E4]]]]]]. exists x, y, z. split; [exact E1|]. cbn [In] in *. tauto.
Qed.

(* a ring in normal form *)
Definition ring_nf (x0 y0 : Z) (cs : list (Z * Z)) : Prop :=
  mv (flat ((x0, y0) :: cs)) /\ fst (last cs (x0, y0)) <> x0 /\ snd (last cs (x0, y0)) <> y0.
Definition path x0 y0 cs : list point :=
  rp x0 ((x0, y0) :: cs) ++ [mk_pt x0 y0; mk_pt (match cs with [] => x0 | (x', _) :: _ => x' end) y0].
Lemma S_ring f x0 y0 cs : ring_nf x0 y0 cs -> S_sum f (path x0 y0 cs) = ring_sum f x0 ((x0, y0) :: cs).
Proof.
  intros [M [H1 H2]].
  pose proof (ring_alt x0 ((x0, y0) :: cs) (mk_pt x0 y0) (mk_pt (match cs with [] => x0 | (x', _) :: _ => x' end) y0)
    eq_refl eq_refl) as A.
  pose proof (nostall_ring x0 cs x0 y0 (mk_pt x0 y0) (mk_pt (match cs with [] => x0 | (x', _) :: _ => x' end) y0) M H1 H2) as N.
  pose proof (T_ring f x0 ((x0, y0) :: cs) (mk_pt x0 y0) (mk_pt (match cs with [] => x0 | (x', _) :: _ => x' end) y0)) as T.
  pose proof (endt_ring f x0 ((x0, y0) :: cs) (mk_pt x0 y0) (mk_pt (match cs with [] => x0 | (x', _) :: _ => x' end) y0) 1) as E.
  fold (path x0 y0 cs) in A, N, T, E. unfold path in A, N, T, E |- *. cbn [rp app] in A, N, T, E |- *.
  pose proof (alt_cancel f _ _ _ (-1) (or_intror eq_refl) A N) as K.
  change (- -1) with 1 in K. rewrite E, T in K.
  destruct (pt_eqb (mk_pt x0 y0) _) eqn:Eq.
  - apply pt_eqb_iff in Eq. rewrite <- Eq in K |- *. lia.
  - lia.
Qed.
Lemma ring_sum_x f fx cs x y : (forall p q, px p = px q -> f p = f q) ->
  ring_sum f fx ((x, y) :: cs) = f (mk_pt x 0) - f (mk_pt fx 0).
Proof.
  intros Hf. revert x y. induction cs as [|[x1 y1] cs IH]; intros x y.
  - cbn [ring_sum]. rewrite (Hf (mk_pt x y) (mk_pt x 0) eq_refl), (Hf (mk_pt fx y) (mk_pt fx 0) eq_refl). lia.
  - change (ring_sum f fx ((x, y) :: (x1, y1) :: cs)) with
      (f (mk_pt x y) - f (mk_pt x1 y) + ring_sum f fx ((x1, y1) :: cs)). rewrite IH.
    rewrite (Hf (mk_pt x y) (mk_pt x 0) eq_refl), (Hf (mk_pt x1 y) (mk_pt x1 0) eq_refl). lia.
Qed.
Lemma ring_sum_y f fx cs : (forall p q, py p = py q -> f p = f q) -> ring_sum f fx cs = 0.
Proof.
  intros Hf. induction cs as [|[x y] cs IH]; [reflexivity|]. cbn [ring_sum]. rewrite IH.
  rewrite (Hf (mk_pt x y) (mk_pt (match cs with [] => fx | (x', _) :: _ => x' end) y) eq_refl). lia.
Qed.

(* ---------- edges ---------- *)
Fixpoint pedges (l : list point) : list (point * point) :=
  match l with a :: t => match t with b :: _ => (a, b) :: pedges t | [] => [] end | [] => [] end.
Lemma combine_pedges l : forall p q, combine (p :: l) (l ++ [q]) = pedges ((p :: l) ++ [q]).
Proof.
  induction l as [|b l IH]; intros p q; [reflexivity|]. cbn [app combine pedges]. f_equal. apply IH.
Qed.
Lemma cyc_pedges p l : cyc_edges (p :: l) = pedges ((p :: l) ++ [p]).
Proof. apply combine_pedges. Qed.
Lemma zsum_app {A : Type} (g : A -> Z) l1 l2 : zsum g (l1 ++ l2) = zsum g l1 + zsum g l2.
Proof. unfold zsum. induction l1 as [|a l1 IH]; cbn [app fold_right]; [lia|]. rewrite IH. lia. Qed.
Lemma zsum_cons {A : Type} (g : A -> Z) a l : zsum g (a :: l) = g a + zsum g l.
Proof. reflexivity. Qed.

Definition quad (x y : Z) (p : point) : Z := b2z ((px p <=? x) && (py p <=? y)).
Lemma crossing_h x y a b c : crossing x y (mk_pt a c, mk_pt b c) = quad x y (mk_pt a c) - quad x y (mk_pt b c).
Proof.
  unfold crossing, quad. cbn [px py]. rewrite Z.eqb_refl. cbn [andb].
  destruct (Z.leb_spec c y), (Z.leb_spec a x), (Z.leb_spec b x), (Z.ltb_spec x b), (Z.ltb_spec x a); cbn [andb b2z]; lia.
Qed.
Lemma crossing_v x y a b c : crossing x y (mk_pt a b, mk_pt a c) = 0.
Proof.
  unfold crossing. cbn [px py]. destruct (Z.eqb_spec b c); cbn [andb]; [|reflexivity].
  destruct (Z.leb_spec b y), (Z.leb_spec a x), (Z.ltb_spec x a); cbn [andb]; lia.
Qed.
Lemma winding_ring x y fx cs : forall p, (match cs with [] => True | _ => px p = fx end) ->
  zsum (crossing x y) (pedges (rp fx cs ++ [p])) = ring_sum (quad x y) fx cs.
Proof.
  induction cs as [|[a b] cs IH]; intros p E; [reflexivity|].
  cbn [rp app]. destruct cs as [|[a' b'] cs].
  - cbn [rp app pedges ring_sum]. rewrite !zsum_cons, crossing_h. destruct p as [u v]. cbn [px] in E. subst u.
    rewrite crossing_v. unfold zsum. cbn [fold_right]. lia.
  - specialize (IH p E). cbn [rp app] in IH |- *.
    change (ring_sum (quad x y) fx ((a, b) :: (a', b') :: cs)) with
      (quad x y (mk_pt a b) - quad x y (mk_pt a' b) + ring_sum (quad x y) fx ((a', b') :: cs)).
    rewrite <- IH. cbn [pedges]. rewrite (zsum_cons (crossing x y) (mk_pt a b, _)), (zsum_cons (crossing x y) (mk_pt a' b, _)), crossing_h, crossing_v. lia.
Qed.

(* ---------- area ---------- *)
Definition shl (e : point * point) : Z := px (fst e) * py (snd e) - px (snd e) * py (fst e).
Definition trap (yb : Z) (e : point * point) : Z :=
  (px (snd e) - px (fst e)) * ((py (snd e) - yb) + (py (fst e) - yb)).
Lemma trap_path yb l : forall p, zsum (trap yb) (pedges (p :: l)) =
  - zsum shl (pedges (p :: l)) + (px (last l p) * py (last l p) - px p * py p) - 2 * yb * (px (last l p) - px p).
Proof.
  induction l as [|q l IH]; intros p.
  - unfold zsum. cbn [pedges fold_right last]. lia.
  - change (pedges (p :: q :: l)) with ((p, q) :: pedges (q :: l)). rewrite !zsum_cons, IH.
    assert (L : last (q :: l) p = last l q).
    { destruct l as [|c l]; [reflexivity|]. exact (last_dflt l c p q). }
    rewrite L. unfold trap, shl. cbn [fst snd]. lia.
Qed.
Lemma last_app1 {A : Type} (l : list A) a d : last (l ++ [a]) d = a.
Proof. induction l as [|b l IH]; [reflexivity|]. cbn [app last]. destruct (l ++ [a]) eqn:E; [destruct l; discriminate|exact IH]. Qed.
Lemma shoelace_trap yb p l : zsum (trap yb) (cyc_edges (p :: l)) = - shoelace2 (p :: l).
Proof.
  rewrite cyc_pedges. cbn [app]. rewrite trap_path, last_app1. unfold shoelace2. rewrite cyc_pedges. cbn [app].
  unfold shl. lia.
Qed.

Lemma chk64_inv' z v : chk64 z = Ok v -> v = z.
Proof. unfold chk64. destruct (_ && _); intros E; [congruence|discriminate]. Qed.
Lemma area_edge_eq yb a b s v : axis_edge (a, b) -> area_edge yb a b s = Ok v -> 2 * v = 2 * s + trap yb (a, b).
Proof.
  unfold area_edge, axis_edge, trap. cbn [fst snd]. intros A.
  destruct (chk64 (px b - px a)) as [dx| |] eqn:E1; cbn [obind]; try discriminate.
  destruct (chk64 (py b - yb)) as [h1| |] eqn:E2; cbn [obind]; try discriminate.
  destruct (chk64 (py a - yb)) as [h2| |] eqn:E3; cbn [obind]; try discriminate.
  destruct (chk64 (h1 + h2)) as [h| |] eqn:E4; cbn [obind]; try discriminate.
  destruct (chk64 (dx * h)) as [p| |] eqn:E5; cbn [obind]; try discriminate.
  intros E6. apply chk64_inv' in E1, E2, E3, E4, E5, E6. subst.
  destruct A as [A|A].
  - rewrite A, Z.sub_diag, !Z.mul_0_l. cbn [Z.quot Z.quotrem fst]. lia.
  - rewrite A. replace ((px b - px a) * (py b - yb + (py b - yb))) with ((px b - px a) * (py b - yb) * 2) by ring.
    rewrite Z.quot_mul by lia. ring.
Qed.
Lemma area_loop_eq yb l : forall p s v q, Forall axis_edge (pedges (p :: l)) -> area_loop yb p s l = Ok (v, q) ->
  q = last l p /\ 2 * v = 2 * s + zsum (trap yb) (pedges (p :: l)).
Proof.
  induction l as [|b l IH]; intros p s v q A E.
  - cbn [area_loop] in E. injection E as <- <-. split; [reflexivity|]. unfold zsum. cbn [pedges fold_right]. lia.
  - change (pedges (p :: b :: l)) with ((p, b) :: pedges (b :: l)) in A |- *. inversion A as [|? ? A1 A2]; subst.
    cbn [area_loop] in E. rewrite zsum_cons.
    assert (L : last (b :: l) p = last l b).
    { destruct l as [|c l]; [reflexivity|]. exact (last_dflt l c p b). }
    rewrite L. destruct (Z.eqb_spec (px p) (px b)) as [X|X].
    + cbn [obind] in E. destruct (IH _ _ _ _ A2 E) as [H1 H2]. split; [exact H1|]. rewrite H2.
      unfold trap at 2. cbn [fst snd]. rewrite X. lia.
    + destruct (area_edge yb p b s) as [s'| |] eqn:E1; cbn [obind] in E; try discriminate.
      destruct (IH _ _ _ _ A2 E) as [H1 H2]. split; [exact H1|]. rewrite H2.
      pose proof (area_edge_eq _ _ _ _ _ A1 E1). lia.
Qed.
Lemma pedges_app l : forall p q, pedges ((p :: l) ++ [q]) = pedges (p :: l) ++ [(last l p, q)].
Proof.
  induction l as [|b l IH]; intros p q; [reflexivity|].
  change (pedges ((p :: b :: l) ++ [q])) with ((p, b) :: pedges ((b :: l) ++ [q])). rewrite IH.
  assert (L : last (b :: l) p = last l b).
  { destruct l as [|c l]; [reflexivity|]. exact (last_dflt l c p b). }
  rewrite L. reflexivity.
Qed.
(* the area of a Manhattan cycle is minus the shoelace area *)
Lemma points_area_eq l v : Forall axis_edge (cyc_edges l) -> points_area l = Ok v -> 2 * v = - shoelace2 l.
Proof.
  destruct l as [|p l]; intros A E.
  - cbn [points_area] in E. injection E as <-. reflexivity.
  - rewrite <- (shoelace_trap (py p)). rewrite cyc_pedges, pedges_app in A |- *.
    apply Forall_app in A as [A1 A2]. inversion A2 as [|? ? A3 _]; subst.
    rewrite zsum_app, zsum_cons. cbn [points_area] in E.
    destruct (area_loop (py p) p 0 l) as [[s q]| |] eqn:E1; cbn [obind] in E; try discriminate.
    destruct (area_loop_eq _ _ _ _ _ _ A1 E1) as [H1 H2]. rewrite <- H1 in A3 |- *. unfold zsum at 2. cbn [fold_right].
    destruct (pt_eqb p q) eqn:Eq.
    + apply pt_eqb_iff in Eq. injection E as <-. rewrite H2. unfold trap at 3. cbn [fst snd]. rewrite Eq. lia.
    + pose proof (area_edge_eq _ _ _ _ _ A3 E). lia.
Qed.
Lemma points_area_defined l : points_area l <> Undefined.
Proof.
  assert (C : forall z, chk64 z <> Undefined) by (intros z; unfold chk64; destruct (_ && _); discriminate).
  assert (B : forall (o : outcome Z) (f : Z -> outcome Z), o <> Undefined -> (forall z, f z <> Undefined) -> obind o f <> Undefined).
  { intros [a| |] f H1 H2; cbn [obind]; [apply H2|discriminate|contradiction]. }
  assert (A : forall yb a b s, area_edge yb a b s <> Undefined) by (intros; unfold area_edge; repeat (apply B; [apply C|intros]); apply C).
  destruct l as [|p l]; [discriminate|]. cbn [points_area].
  assert (L : forall yb k q s, area_loop yb q s k <> Undefined).
  { intros yb k. induction k as [|b k IH]; intros q s; cbn [area_loop]; [discriminate|].
    destruct (px q =? px b); cbn [obind]; [apply IH|].
    specialize (A yb q b s). destruct (area_edge yb q b s); cbn [obind]; [apply IH|discriminate|contradiction]. }
  specialize (L (py p) l p 0). destruct (area_loop (py p) p 0 l) as [[s q]| |]; cbn [obind]; [|discriminate|contradiction].
  destruct (pt_eqb p q); [discriminate|apply A].
Qed.
