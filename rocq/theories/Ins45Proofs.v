(* The insertion into sets of 45-degree polygons: the depth of what is inserted. *)
From Verif Require Import Base Units Outcome Scan90Spec Poly90Spec Poly90Model Poly90Proofs GeoSpec PolySpec PolyModel PolyArea Set90Spec ArbSpec ArbOrder ArbSums ArbSetModel ArbSetProofs Ins45Spec Ins45Model.
From Coq Require Import Reals Lra.

(* the half line of index i that begins at p *)
Definition hl (i : Z) (p : point) (x y : R) : Z :=
  if rleb (IZR (px p)) x then
    if i =? 0 then (if line_below (-1) p x y then 1 else 0)
    else if i =? 1 then (if line_below 0 p x y then 1 else 0)
    else if i =? 2 then (if line_below 1 p x y then 1 else 0) else 0
  else 0.
Lemma add_depth i c v x y : 0 <= i <= 3 -> v45_depth (add_count i c v) x y = v45_depth v x y + c * hl i (v_pt v) x y.
Proof.
  intros I. unfold v45_depth, hl, add_count. cbn [v_pt v_down v_flat v_up]. destruct (rleb _ _); [|lia].
  assert (i = 0 \/ i = 1 \/ i = 2 \/ i = 3) as [-> | [-> | [-> | ->]]] by lia; cbn [Z.eqb Pos.eqb]; destruct (line_below (-1) _ _ _), (line_below 0 _ _ _), (line_below 1 _ _ _); lia.
Qed.
Lemma char_range p q : 0 <= fst (characterize p q) <= 3 /\ snd (characterize p q) = (if px p =? px q then -1 else 1) /\ (fst (characterize p q) = 3 <-> px p = px q).
Proof. unfold characterize. destruct (px p =? px q) eqn:A, (py p =? py q) eqn:B, (px p <? px q) eqn:C, (py p <? py q) eqn:D; cbn [fst snd]; lia. Qed.
Definition dirof (high : bool) : Z := if high then 1 else -1.
Definition hle (p q z : point) (x y : R) : Z := hl (fst (characterize p q)) z x y.
Lemma hl_3 z x y : hl 3 z x y = 0.
Proof. unfold hl. destruct (rleb _ _); reflexivity. Qed.
Lemma pair_depth high p1 p2 p3 x y : v45_depth (half_edge_pair high p1 p2 p3) x y = dirof high * (hle p2 p3 p2 x y - hle p1 p2 p2 x y).
Proof.
  unfold half_edge_pair, hle. destruct (char_range p1 p2) as [R1 [S1 V1]], (char_range p2 p3) as [R2 [S2 V2]]. destruct (characterize p1 p2) as [i s], (characterize p2 p3) as [j t]. cbn [fst snd] in *.
  rewrite !add_depth by lia. unfold add_count at 1. cbn [v_pt]. assert (E : v45_depth (mk_v45 p2 0 0 0 0) x y = 0). { unfold v45_depth. cbn [v_pt v_down v_flat v_up]. destruct (rleb _ _); [|reflexivity]. destruct (line_below (-1) _ _ _), (line_below 0 _ _ _), (line_below 1 _ _ _); reflexivity. }
  rewrite E. fold (dirof high). cbn [v_pt]. unfold add_count. cbn [v_pt].
  assert (A : s * hl i p2 x y = hl i p2 x y). { destruct (Z.eq_dec i 3) as [-> | N]; [rewrite hl_3; lia|]. assert (s = 1) by (destruct (px p1 =? px p2) eqn:Q; lia). subst s. lia. }
  assert (B : t * hl j p2 x y = hl j p2 x y). { destruct (Z.eq_dec j 3) as [-> | N]; [rewrite hl_3; lia|]. assert (t = 1) by (destruct (px p2 =? px p3) eqn:Q; lia). subst t. lia. }
  replace (s * - dirof high * hl i p2 x y) with (- dirof high * (s * hl i p2 x y)) by ring. replace (t * dirof high * hl j p2 x y) with (dirof high * (t * hl j p2 x y)) by ring. rewrite A, B. ring.
Qed.
Lemma edge_height_45 a b r x : px a < px b -> py b - py a = r * (px b - px a) -> height (mk_seg a b) x = (IZR (py a) + IZR r * (x - IZR (px a)))%R.
Proof.
  intros L E. unfold height. cbn [s_low s_high]. assert (X : (IZR (py b) - IZR (py a) = IZR r * (IZR (px b) - IZR (px a)))%R) by (rewrite <- !minus_IZR, <- mult_IZR, E; reflexivity).
  rewrite X. assert (IZR (px a) < IZR (px b))%R by (apply IZR_lt; exact L). field. lra.
Qed.
(* an edge is a half line minus the half line that begins at its end *)
Lemma span_45 i r a b x y : px a < px b -> py b - py a = r * (px b - px a) ->
  (forall z, hl i z x y = if rleb (IZR (px z)) x && line_below (IZR r) z x y then 1 else 0) ->
  hl i a x y - hl i b x y = crossing_r x y (a, b).
Proof.
  intros L E H. rewrite !H. unfold crossing_r. rewrite (edge_height_45 a b r x L E).
  assert (LB : line_below (IZR r) b x y = line_below (IZR r) a x y).
  { unfold line_below. replace (IZR (py b)) with (IZR (py a) + IZR r * (IZR (px b) - IZR (px a)))%R by (rewrite <- minus_IZR, <- mult_IZR, <- E, minus_IZR; ring). replace (IZR (py a) + IZR r * (IZR (px b) - IZR (px a)) + IZR r * (x - IZR (px b)))%R with (IZR (py a) + IZR r * (x - IZR (px a)))%R by ring. reflexivity. }
  rewrite LB. fold (line_below (IZR r) a x y). assert (X : (IZR (px a) < IZR (px b))%R) by (apply IZR_lt; exact L).
  assert (Q : rleb (IZR (px b)) x && rltb x (IZR (px a)) = false) by (apply not_true_iff_false; rewrite andb_true_iff, rleb_iff, rltb_iff; lra). rewrite Q.
  assert (T : rltb x (IZR (px b)) = negb (rleb (IZR (px b)) x)) by (unfold rltb, rleb; destruct (Rlt_dec _ _), (Rle_dec _ _); try reflexivity; exfalso; lra). rewrite T.
  assert (U : rleb (IZR (px b)) x = true -> rleb (IZR (px a)) x = true) by (rewrite !rleb_iff; lra).
  destruct (rleb (IZR (px a)) x), (rleb (IZR (px b)) x), (line_below (IZR r) a x y); cbn [andb negb]; try lia; specialize (U eq_refl); discriminate.
Qed.
Lemma crossing_anti a b x y : px a <> px b -> crossing_r x y (a, b) = - crossing_r x y (b, a).
Proof.
  intros N. unfold crossing_r.
  assert (Q : rleb (IZR (px a)) x && rltb x (IZR (px b)) = true -> rleb (IZR (px b)) x && rltb x (IZR (px a)) = true -> False) by (rewrite !andb_true_iff, !rleb_iff, !rltb_iff; lra).
  destruct (rleb (IZR (px a)) x && rltb x (IZR (px b))), (rleb (IZR (px b)) x && rltb x (IZR (px a))); cbn [andb]; [destruct (Q eq_refl eq_refl)|destruct (rltb _ y)..|]; reflexivity.
Qed.
Lemma crossing_vert a b x y : px a = px b -> crossing_r x y (a, b) = 0.
Proof.
  intros E. unfold crossing_r. rewrite E. assert (rleb (IZR (px b)) x && rltb x (IZR (px b)) = false) as -> by (apply not_true_iff_false; rewrite andb_true_iff, rleb_iff, rltb_iff; lra). reflexivity.
Qed.
Lemma char_sym p q : fst (characterize p q) = fst (characterize q p).
Proof. unfold characterize. destruct (px p =? px q) eqn:A, (px q =? px p) eqn:A', (py p =? py q) eqn:B, (py q =? py p) eqn:B', (px p <? px q) eqn:C, (px q <? px p) eqn:C', (py p <? py q) eqn:D, (py q <? py p) eqn:D'; cbn [fst]; lia. Qed.
Lemma hle_right p q x y : edge_45 (p, q) -> px p < px q -> hle p q p x y - hle p q q x y = crossing_r x y (p, q).
Proof.
  intros E L. unfold hle, characterize. destruct (px p =? px q) eqn:A; [lia|]. assert (C : (px p <? px q) = true) by lia. rewrite C. unfold edge_45, axis_edge in E. cbn [fst snd] in E. destruct (py p =? py q) eqn:B; cbn [fst]; [|destruct (py p <? py q) eqn:D; cbn [fst]].
  - apply (span_45 1 0); [lia|lia|]. intros z. unfold hl. destruct (rleb _ _), (line_below _ z x y); reflexivity.
  - apply (span_45 2 1); [lia|lia|]. intros z. unfold hl. destruct (rleb _ _), (line_below _ z x y); reflexivity.
  - apply (span_45 0 (-1)); [lia|lia|]. intros z. unfold hl. destruct (rleb _ _), (line_below _ z x y); reflexivity.
Qed.
Lemma hle_edge p q x y : edge_45 (p, q) -> hle p q p x y - hle p q q x y = crossing_r x y (p, q).
Proof.
  intros E. destruct (Z.lt_trichotomy (px p) (px q)) as [L|[L|L]].
  - apply hle_right; assumption.
  - rewrite crossing_vert by exact L. unfold hle. destruct (char_range p q) as [_ [_ V]]. rewrite (proj2 V L), !hl_3. reflexivity.
  - assert (E' : edge_45 (q, p)) by (unfold edge_45, axis_edge in *; cbn [fst snd] in *; lia). pose proof (hle_right q p x y E' L) as H. rewrite crossing_anti by lia. unfold hle in *. rewrite (char_sym p q). lia.
Qed.

(* ---------- sequences ---------- *)
Lemma last_next (q p : point) l : last (q :: l) p = last l q.
Proof. revert p q. induction l as [|a l IH]; intros p q; [reflexivity|]. change (last (q :: a :: l) p) with (last (a :: l) p). rewrite (IH p a), (IH q a). reflexivity. Qed.
Definition sdepth (s : set45) (x y : R) : Z := depth45 (s_data s) x y.
Lemma push_depth high p1 p2 p3 s x y : sdepth (push_pair high p1 p2 p3 s) x y = sdepth s x y + dirof high * (hle p2 p3 p2 x y - hle p1 p2 p2 x y).
Proof. unfold sdepth, push_pair, depth45. cbn [s_data]. rewrite tot_app. cbn [tot]. rewrite pair_depth. lia. Qed.
(* the edges of a path, without the closing edge *)
Definition path_r (p : point) (l : list point) (x y : R) : Z := tot (crossing_r x y) (combine (p :: l) l).
Lemma path_cons p q l x y : path_r p (q :: l) x y = crossing_r x y (p, q) + path_r q l x y.
Proof. reflexivity. Qed.
Definition path_45 (p : point) (l : list point) : Prop := forall e, In e (combine (p :: l) l) -> edge_45 e.
Lemma crossing_same p x y : crossing_r x y (p, p) = 0.
Proof. apply crossing_vert. reflexivity. Qed.
Lemma loop_depth high x y l : forall pp p s pp' p' s', path_45 p l -> vseq45_loop high pp p l s = (pp', p', s') ->
  sdepth s' x y = sdepth s x y + dirof high * (path_r p l x y + hle pp' p' p' x y - hle pp p p x y) /\ p' = last l p /\ (edge_45 (pp, p) -> edge_45 (pp', p')).
Proof.
  induction l as [|q l IH]; intros pp p s pp' p' s' P H; cbn [vseq45_loop] in H.
  - assert (pp' = pp /\ p' = p /\ s' = s) as [-> [-> ->]] by (repeat split; congruence). unfold path_r. cbn [combine tot last]. split; [lia|auto].
  - assert (P' : path_45 q l) by (intros e X; apply P; right; exact X). destruct (pt_eqb q p) eqn:Q.
    + apply pt_eqb_iff in Q. subst q. destruct (IH _ _ _ _ _ _ P' H) as [A [B C]]. split; [rewrite path_cons, crossing_same; exact A|]. split; [|exact C]. rewrite B. destruct l; reflexivity.
    + assert (E : edge_45 (p, q)) by (apply P; left; reflexivity). destruct (IH _ _ _ _ _ _ P' H) as [A [B C]]. rewrite push_depth in A. split; [|split].
      * rewrite A, path_cons. pose proof (hle_edge p q x y E). replace (hle p q p x y) with (crossing_r x y (p, q) + hle p q q x y) by lia. ring.
      * rewrite B, last_next. reflexivity.
      * intros _. apply C, E.
Qed.
Lemma winding_path f l x y : winding_r (f :: l) x y = path_r f l x y + crossing_r x y (last l f, f).
Proof.
  unfold winding_r, cyc_edges, path_r. rewrite zsum_tot.
  assert (K : forall l p, tot (crossing_r x y) (combine (p :: l) (l ++ [f])) = tot (crossing_r x y) (combine (p :: l) l) + crossing_r x y (last l p, f)).
  { clear l. induction l as [|q l IH]; intros p; [cbn [combine app tot last]; lia|]. change (combine (p :: q :: l) ((q :: l) ++ [f])) with ((p, q) :: combine (q :: l) (l ++ [f])). change (combine (p :: q :: l) (q :: l)) with ((p, q) :: combine (q :: l) l). cbn [tot]. rewrite IH, last_next. lia. }
  apply K.
Qed.
Lemma next_spec f l : match next_differing f l with
  | None => forall x y, path_r f l x y = 0 /\ last l f = f
  | Some (q, l') => q <> f /\ (forall x y, path_r f l x y = crossing_r x y (f, q) + path_r q l' x y) /\ last l f = last l' q /\ (path_45 f l -> edge_45 (f, q) /\ path_45 q l') end.
Proof.
  induction l as [|q l IH]; cbn [next_differing]; [intros x y; split; reflexivity|]. destruct (pt_eqb q f) eqn:Q.
  - apply pt_eqb_iff in Q. subst q. assert (L : last (f :: l) f = last l f) by (destruct l; reflexivity). destruct (next_differing f l) as [[q l']|].
    + destruct IH as [A [B [C D]]]. split; [exact A|]. split; [intros x y; rewrite path_cons, crossing_same; apply B|]. split; [rewrite L; exact C|]. intros P. apply D. intros e X. apply P. right. exact X.
    + intros x y. rewrite path_cons, crossing_same, L. apply IH.
  - split; [intros E; apply pt_eqb_iff in E; congruence|]. split; [intros x y; apply path_cons|]. split; [|intros P; split; [apply P; left; reflexivity|intros e X; apply P; right; exact X]].
    apply last_next.
Qed.
Lemma cyc_path f l : cycle_45 (f :: l) -> path_45 f l /\ edge_45 (last l f, f).
Proof.
  unfold cycle_45, cyc_edges. rewrite Forall_forall. intros H. assert (K : forall l p, (forall e, In e (combine (p :: l) (l ++ [f])) -> edge_45 e) -> path_45 p l /\ edge_45 (last l p, f)).
  { clear. induction l as [|q l IH]; intros p H; [split; [intros e []|apply H; left; reflexivity]|]. destruct (IH q (fun e X => H e (or_intror X))) as [A B]. split.
    - intros e [X|X]; [apply H; left; exact X|apply A; exact X].
    - rewrite last_next. exact B. }
  apply K, H.
Qed.
Definition high_of (ccw hole : bool) : bool := if hole then negb ccw else ccw.
Lemma vseq45_depth ccw hole pts s x y : cycle_45 pts -> sdepth (insert_vseq45 ccw hole pts s) x y = sdepth s x y + dirof (high_of ccw hole) * winding_r pts x y.
Proof.
  destruct pts as [|f l]; intros H; cbn [insert_vseq45]; [unfold winding_r; cbn [cyc_edges zsum fold_right]; lia|]. fold (high_of ccw hole). destruct (cyc_path f l H) as [P C]. rewrite winding_path. pose proof (next_spec f l) as N. destruct (next_differing f l) as [[q l']|].
  - destruct N as [N1 [N2 [N3 N4]]]. destruct (N4 P) as [E P']. destruct (vseq45_loop (high_of ccw hole) f q l' s) as [[pp p] s'] eqn:V. destruct (loop_depth _ x y l' _ _ _ _ _ _ P' V) as [A [B D]]. rewrite N2, N3 in *. rewrite <- B in *. pose proof (hle_edge f q x y E) as HE. pose proof (hle_edge _ _ x y C) as HC. destruct (pt_eqb p f) eqn:Q; cbn [negb].
    + apply pt_eqb_iff in Q. subst f. rewrite push_depth, A, crossing_same, <- HE. ring.
    + rewrite !push_depth, A. rewrite <- HC, <- HE. ring.
  - destruct (N x y) as [-> ->]. rewrite crossing_same. lia.
Qed.
