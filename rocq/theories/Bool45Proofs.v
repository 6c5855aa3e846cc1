(* Boolean operations on sets of 45-degree polygons: what the sweep needs, and what it gives. *)
From Coq Require Import Sorting.Sorted Permutation Reals Lra.
From Verif Require Import Base Units Scan90Spec Poly90Spec Poly90Model Poly90Proofs ArbSpec ArbSums ArbOrder Ins45Spec Ins45Model Scan45Model Scan45Base Scan45Step Scan45Process Scan45Advance Scan45Sweep Bool45Spec Bool45Model.
Local Open Scope Z_scope.

Lemma pt_ltb_iff p q : pt_ltb p q = true <-> pt_lt p q.
Proof. unfold pt_ltb, pt_lt. lia. Qed.
Lemma pt_total p q : pt_ltb p q = false -> pt_ltb q p = false -> p = q.
Proof. destruct p as [a b], q as [c d]. unfold pt_ltb. cbn [px py]. intros H1 H2. f_equal; lia. Qed.
Lemma pt_lt_trans p q r : pt_lt p q -> pt_lt q r -> pt_lt p r.
Proof. unfold pt_lt. lia. Qed.
Lemma tot_perm {A : Type} (f : A -> Z) a b : Permutation a b -> tot f a = tot f b.
Proof. induction 1; cbn [tot]; lia. Qed.
Lemma boundary_perm a b : Permutation a b -> boundary45 a -> boundary45 b.
Proof.
  intros P [B1 [B2 B3]]. split; [|split].
  - rewrite Forall_forall in *. intros v I. apply B1. apply Permutation_sym in P. exact (Permutation_in v P I).
  - intros r c R. rewrite <- (B2 r c R). symmetry. apply tot_perm, P.
  - intros x. rewrite <- (B3 x). symmetry. apply tot_perm, P.
Qed.
Lemma depth_perm a b x y : Permutation a b -> depth45 a x y = depth45 b x y.
Proof. apply tot_perm. Qed.

(* ---------- the events ---------- *)
Lemma merge_nil a : merge45 a [] = map ev_left a.
Proof. induction a as [|v a IH]; [reflexivity|]. cbn [merge45 map]. rewrite IH. reflexivity. Qed.
Lemma merge_nil_l b : merge45 [] b = map ev_right b.
Proof. induction b as [|w b IH]; [reflexivity|]. cbn [merge45 map]. rewrite <- IH. reflexivity. Qed.
Lemma merge_cons v a w b : merge45 (v :: a) (w :: b) =
  if pt_ltb (v_pt w) (v_pt v) then ev_right w :: merge45 (v :: a) b
  else if pt_ltb (v_pt v) (v_pt w) then ev_left v :: merge45 a (w :: b) else ev_both v w :: merge45 a b.
Proof. reflexivity. Qed.
Lemma merge45_tot f a : (forall v w, v_pt v = v_pt w -> f (ev_both v w) = f (ev_left v) + f (ev_right w)) ->
  forall b, tot f (merge45 a b) = tot (fun v => f (ev_left v)) a + tot (fun w => f (ev_right w)) b.
Proof.
  intros H. induction a as [|v a IHa]; intros b; [rewrite merge_nil_l, tot_map; cbn [tot]; lia|].
  induction b as [|w b IHb]; [rewrite merge_nil, tot_map; cbn [tot]; lia|]. rewrite merge_cons.
  destruct (pt_ltb (v_pt w) (v_pt v)) eqn:E1; [|destruct (pt_ltb (v_pt v) (v_pt w)) eqn:E2].
  - cbn [tot] in *. rewrite IHb. lia.
  - cbn [tot] in *. rewrite IHa. cbn [tot]. lia.
  - cbn [tot] in *. rewrite IHa, (H v w (pt_total _ _ E2 E1)). lia.
Qed.
Lemma merge45_in a : forall b e, In e (merge45 a b) -> (exists v, In v a /\ e = ev_left v) \/ (exists w, In w b /\ e = ev_right w) \/ exists v w, In v a /\ In w b /\ v_pt v = v_pt w /\ e = ev_both v w.
Proof.
  induction a as [|v a IHa]; intros b e I.
  - rewrite merge_nil_l in I. apply in_map_iff in I as [w [<- I]]. right. left. eauto.
  - induction b as [|w b IHb].
    + rewrite merge_nil in I. apply in_map_iff in I as [u [<- I]]. left. eauto.
    + rewrite merge_cons in I. destruct (pt_ltb (v_pt w) (v_pt v)) eqn:E1; [|destruct (pt_ltb (v_pt v) (v_pt w)) eqn:E2]; (destruct I as [<-|I]).
      * right. left. exists w. split; [left|]; reflexivity.
      * destruct (IHb I) as [H|[[u [H1 H2]]|[u [u' [H1 [H2 H3]]]]]]; [left; exact H|right; left; exists u; split; [right|]; assumption|right; right; exists u, u'; split; [exact H1|]; split; [right; exact H2|exact H3]].
      * left. exists v. split; [left|]; reflexivity.
      * destruct (IHa _ _ I) as [[u [H1 H2]]|[H|[u [u' [H1 H2]]]]]; [left; exists u; split; [right|]; assumption|right; left; exact H|right; right; exists u, u'; split; [right; exact H1|exact H2]].
      * right. right. exists v, w. split; [left; reflexivity|]. split; [left; reflexivity|]. split; [apply pt_total; assumption|reflexivity].
      * destruct (IHa _ _ I) as [[u [H1 H2]]|[[u [H1 H2]]|[u [u' [H1 [H2 H3]]]]]]; [left; exists u; split; [right|]; assumption|right; left; exists u; split; [right|]; assumption|right; right; exists u, u'; split; [right; exact H1|]; split; [right; exact H2|exact H3]].
Qed.
Lemma merge45_bound p a b : (forall v, In v a -> pt_le p (v_pt v)) -> (forall w, In w b -> pt_le p (v_pt w)) -> forall e, In e (merge45 a b) -> pt_le p (n_pt e).
Proof. intros A B e I. apply merge45_in in I as [[v [I ->]]|[[w [I ->]]|[v [w [I [J [_ ->]]]]]]]; cbn [n_pt ev_left ev_right ev_both]; auto. Qed.
Lemma pt_le_ev e u : pt_le (n_pt e) (n_pt u) -> ev_le e u.
Proof. unfold pt_le, pt_lt, ev_le. intros [H|H]; [lia|rewrite H; lia]. Qed.
Lemma pt_le_trans p q r : pt_le p q -> pt_le q r -> pt_le p r.
Proof. unfold pt_le. intros [H|<-] [G|<-]; [left; eapply pt_lt_trans; eassumption|left; exact H|left; exact G|right; reflexivity]. Qed.
Lemma merge45_sorted a : forall b, in_order a -> in_order b -> StronglySorted ev_le (merge45 a b).
Proof.
  induction a as [|v a IHa]; intros b A B.
  - rewrite merge_nil_l. clear A. induction B as [|w b B IH F]; [constructor|]. cbn [map]. constructor; [exact IH|]. rewrite Forall_forall in *. intros e I. apply in_map_iff in I as [u [<- I]]. apply pt_le_ev, (F u I).
  - induction b as [|w b IHb].
    + rewrite merge_nil. clear IHa B. remember (v :: a) as l eqn:E. clear E v a. induction A as [|w b B IH F]; [constructor|]. cbn [map]. constructor; [exact IH|]. rewrite Forall_forall in *. intros e I. apply in_map_iff in I as [u [<- I]]. apply pt_le_ev, (F u I).
    + inversion A as [|? ? A1 A2]; subst. inversion B as [|? ? B1 B2]; subst. rewrite Forall_forall in A2, B2. rewrite merge_cons.
      destruct (pt_ltb (v_pt w) (v_pt v)) eqn:E1; [|destruct (pt_ltb (v_pt v) (v_pt w)) eqn:E2]; (constructor; [auto|]); rewrite Forall_forall; intros e I; apply pt_le_ev.
      * apply pt_ltb_iff in E1. revert e I. apply merge45_bound; [|exact B2]. intros u [<-|I]; [left; exact E1|]. eapply pt_le_trans; [left; exact E1|auto].
      * apply pt_ltb_iff in E2. revert e I. apply merge45_bound; [exact A2|]. intros u [<-|I]; [left; exact E2|]. eapply pt_le_trans; [left; exact E2|]. apply B2, I.
      * revert e I. apply merge45_bound; [|exact B2]. cbn [n_pt ev_both]. rewrite <- (pt_total _ _ E2 E1). exact A2.
Qed.
Lemma merge45_delta a b : Forall balanced a -> Forall balanced b -> forall e, In e (merge45 a b) -> delta e = cz.
Proof.
  intros A B e I. rewrite Forall_forall in A, B. unfold balanced in *.
  apply merge45_in in I as [[v [I ->]]|[[w [I ->]]|[v [w [I [J [_ ->]]]]]]]; unfold delta, cadd, csub, cz; cbn [n_0 n_1 n_2 n_3 ev_left ev_right ev_both fst snd]; try specialize (A v I); try specialize (B w I); try specialize (B w J); f_equal; lia.
Qed.
(* sums over the events are sums over the two vectors *)
Lemma csum_split f a b : (forall v w, v_pt v = v_pt w -> f (ev_both v w) = cadd (f (ev_left v)) (f (ev_right w))) -> (forall v, snd (f (ev_left v)) = 0) -> (forall w, fst (f (ev_right w)) = 0) ->
  csum f (merge45 a b) = (tot (fun v => fst (f (ev_left v))) a, tot (fun w => snd (f (ev_right w))) b).
Proof.
  intros H L R. apply cnt2_eq.
  - rewrite (csum_g fst f _ fst_additive), (merge45_tot (fun e => fst (f e))); [cbn [fst]; rewrite (tot_zero (fun w => fst (f (ev_right w))) b); [lia|auto]|]. intros v w E. rewrite (H v w E). reflexivity.
  - rewrite (csum_g snd f _ snd_additive), (merge45_tot (fun e => snd (f e))); [cbn [snd]; rewrite (tot_zero (fun w => snd (f (ev_left w))) a); [lia|auto]|]. intros v w E. rewrite (H v w E). reflexivity.
Qed.

Lemma csum_filter f c l : csum f (filter c l) = csum (fun e => if c e then f e else cz) l.
Proof. induction l as [|e l IH]; [reflexivity|]. cbn [filter]. rewrite csum_cons, <- IH. destruct (c e); [reflexivity|rewrite cadd_0_l; reflexivity]. Qed.
Lemma merge45_columns a b X : csum n_3 (filter (fun e => px (n_pt e) =? X) (merge45 a b)) = (column_total X a, column_total X b).
Proof.
  rewrite csum_filter, csum_split.
  - f_equal; apply tot_ext; intros v _; cbn [ev_left ev_right n_pt n_3]; destruct (px (v_pt v) =? X); reflexivity.
  - intros v w E. cbn [ev_left ev_right ev_both n_pt n_3]. rewrite E. destruct (px (v_pt w) =? X); [|reflexivity]. unfold cadd. cbn [fst snd]. f_equal; lia.
  - intros v. cbn [ev_left n_pt n_3]. destruct (px (v_pt v) =? X); reflexivity.
  - intros v. cbn [ev_right n_pt n_3]. destruct (px (v_pt v) =? X); reflexivity.
Qed.
Definition lsel1 (ln : Z * Z) (p : point) (r : Z) (c : cnt2) : cnt2 := if (r =? fst ln) && (py p - r * px p =? snd ln) then c else cz.
Definition lsel (ln : Z * Z) (e : event) : cnt2 := cadd (cadd (lsel1 ln (n_pt e) (-1) (n_0 e)) (lsel1 ln (n_pt e) 0 (n_1 e))) (lsel1 ln (n_pt e) 1 (n_2 e)).
Lemma lsel_esum g ln e : additive g -> esum1 g (ind ln) e = g (lsel ln e).
Proof.
  intros [A0 [A1 _]]. unfold esum1, lsel. rewrite !A1.
  assert (H : forall r c, g c * ind ln (line_at (n_pt e) r) = g (lsel1 ln (n_pt e) r c)) by (intros r c; unfold ind, lsel1, line_at; cbn [fst snd]; destruct (_ && _); rewrite ?A0; lia).
  rewrite !H. reflexivity.
Qed.
Lemma lsel_left ln v : lsel ln (ev_left v) = (if py (v_pt v) =? fst ln * px (v_pt v) + snd ln then slope_count v (fst ln) else 0, 0).
Proof.
  destruct ln as [r b]. unfold lsel, lsel1, slope_count. cbn [ev_left n_pt n_0 n_1 n_2 fst snd].
  destruct (Z.eq_dec r (-1)) as [->|N0]; [|destruct (Z.eq_dec r 0) as [->|N1]; [|destruct (Z.eq_dec r 1) as [->|N2]]].
  - replace (py (v_pt v) - -1 * px (v_pt v) =? b) with (py (v_pt v) =? -1 * px (v_pt v) + b) by lia. destruct (_ =? _ + _); cbn [Z.eqb Pos.eqb andb]; unfold cadd, cz; cbn [fst snd]; f_equal; lia.
  - replace (py (v_pt v) - 0 * px (v_pt v) =? b) with (py (v_pt v) =? 0 * px (v_pt v) + b) by lia. destruct (_ =? _ + _); cbn [Z.eqb Pos.eqb andb]; unfold cadd, cz; cbn [fst snd]; f_equal; lia.
  - replace (py (v_pt v) - 1 * px (v_pt v) =? b) with (py (v_pt v) =? 1 * px (v_pt v) + b) by lia. destruct (_ =? _ + _); cbn [Z.eqb Pos.eqb andb]; unfold cadd, cz; cbn [fst snd]; f_equal; lia.
  - assert (-1 =? r = false) as -> by lia. assert (0 =? r = false) as -> by lia. assert (1 =? r = false) as -> by lia. assert (r =? -1 = false) as -> by lia. assert (r =? 0 = false) as -> by lia. assert (r =? 1 = false) as -> by lia. cbn [andb]. destruct (_ =? _); reflexivity.
Qed.
Lemma lsel_right ln w : lsel ln (ev_right w) = (0, fst (lsel ln (ev_left w))).
Proof. unfold lsel, lsel1. cbn [ev_left ev_right n_pt n_0 n_1 n_2]. repeat (destruct (_ && _)); reflexivity. Qed.
Lemma lsel_both ln v w : v_pt v = v_pt w -> lsel ln (ev_both v w) = cadd (lsel ln (ev_left v)) (lsel ln (ev_right w)).
Proof. intros E. unfold lsel, lsel1. cbn [ev_left ev_right ev_both n_pt n_0 n_1 n_2]. rewrite E. repeat (destruct (_ && _)); unfold cadd, cz; cbn [fst snd]; f_equal; lia. Qed.
Lemma merge45_lines g ln a b : additive g -> esum g (ind ln) (merge45 a b) = g (line_total (fst ln) (snd ln) a, line_total (fst ln) (snd ln) b).
Proof.
  intros Ag. unfold esum. rewrite (tot_ext _ (fun e => g (lsel ln e))) by (intros e _; apply lsel_esum, Ag). rewrite <- (csum_g g _ _ Ag). f_equal. rewrite csum_split.
  - f_equal; apply tot_ext; intros v _; rewrite ?lsel_right, lsel_left; reflexivity.
  - apply lsel_both.
  - intros v. rewrite lsel_left. reflexivity.
  - intros v. rewrite lsel_right. reflexivity.
Qed.
Lemma slope_out v r : ~ -1 <= r <= 1 -> slope_count v r = 0.
Proof. intros H. unfold slope_count. assert (r =? -1 = false) as -> by lia. assert (r =? 0 = false) as -> by lia. assert (r =? 1 = false) as -> by lia. reflexivity. Qed.
Lemma line_total_0 r b l : boundary45 l -> line_total r b l = 0.
Proof. intros [_ [H _]]. destruct (Z_le_gt_dec (-1) r) as [L1|L1]; [destruct (Z_le_gt_dec r 1) as [L2|L2]; [apply H; lia|]|]; apply tot_zero; intros v _; rewrite slope_out by lia; destruct (_ =? _); reflexivity. Qed.

(* ---------- the depth ---------- *)
Lemma Fd_below t y p r : Fd t y (line_at p r) = if line_below (IZR r) p t y then 1 else 0.
Proof. unfold Fd, line_below, hgt, line_at. cbn [fst snd]. assert ((IZR r * t + IZR (py p - r * px p))%R = (IZR (py p) + IZR r * (t - IZR (px p)))%R) as -> by (rewrite minus_IZR, mult_IZR; ring). reflexivity. Qed.
Lemma edep_left t y v : (if rleb (IZR (px (n_pt (ev_left v)))) t then esum1 fst (Fd t y) (ev_left v) else 0) = v45_depth v t y.
Proof. unfold v45_depth, esum1. cbn [ev_left n_pt n_0 n_1 n_2 fst]. rewrite !Fd_below. destruct (rleb _ _); [|reflexivity]. repeat (destruct (line_below _ _ _ _)); lia. Qed.
Lemma edep_right t y v : (if rleb (IZR (px (n_pt (ev_right v)))) t then esum1 snd (Fd t y) (ev_right v) else 0) = v45_depth v t y.
Proof. unfold v45_depth, esum1. cbn [ev_right n_pt n_0 n_1 n_2 snd]. rewrite !Fd_below. destruct (rleb _ _); [|reflexivity]. repeat (destruct (line_below _ _ _ _)); lia. Qed.
Lemma esum1_both g F v w : additive g -> v_pt v = v_pt w -> esum1 g F (ev_both v w) = esum1 g F (ev_left v) + esum1 g F (ev_right w).
Proof.
  intros [_ [A _]] E. unfold esum1. cbn [ev_left ev_right ev_both n_pt n_0 n_1 n_2]. rewrite E.
  assert (H : forall a b, g (a, b) = g (a, 0) + g (0, b)) by (intros a b; rewrite <- A; unfold cadd; cbn [fst snd]; do 2 f_equal; lia).
  rewrite (H (v_down v)), (H (v_flat v)), (H (v_up v)). ring.
Qed.
Lemma merge45_depth t y a b : edep fst t y (merge45 a b) = depth45 a t y /\ edep snd t y (merge45 a b) = depth45 b t y.
Proof.
  assert (E : forall g, additive g -> forall v w, v_pt v = v_pt w -> (if rleb (IZR (px (n_pt (ev_both v w)))) t then esum1 g (Fd t y) (ev_both v w) else 0) = (if rleb (IZR (px (n_pt (ev_left v)))) t then esum1 g (Fd t y) (ev_left v) else 0) + (if rleb (IZR (px (n_pt (ev_right w)))) t then esum1 g (Fd t y) (ev_right w) else 0)).
  { intros g Ag v w P. rewrite (esum1_both g _ v w Ag P). cbn [n_pt ev_left ev_right ev_both]. rewrite P. destruct (rleb _ _); lia. }
  unfold edep. split.
  - rewrite (merge45_tot (fun e => if rleb (IZR (px (n_pt e))) t then esum1 fst (Fd t y) e else 0) a (E fst fst_additive)). rewrite (tot_ext _ (fun v => v45_depth v t y) a) by (intros v _; apply edep_left). rewrite (tot_zero _ b); [unfold depth45; lia|]. intros v _. destruct (rleb _ _); reflexivity.
  - rewrite (merge45_tot (fun e => if rleb (IZR (px (n_pt e))) t then esum1 snd (Fd t y) e else 0) a (E snd snd_additive)). rewrite (tot_ext _ (fun v => v45_depth v t y) b) by (intros v _; apply edep_right). rewrite (tot_zero _ a); [unfold depth45; lia|]. intros v _. destruct (rleb _ _); reflexivity.
Qed.

(* ---------- the result ---------- *)
Definition vlin (h : Z -> point -> Z) (v : v45) : Z := v_down v * h (-1) (v_pt v) + v_flat v * h 0 (v_pt v) + v_up v * h 1 (v_pt v) + v_vert v * h 2 (v_pt v).
Definition olin (h : Z -> point -> Z) (q : out45) : Z := let '(p, (r, c)) := q in if (-1 <=? r) && (r <=? 2) then c * h r p else 0.
Lemma add_pt i c v : v_pt (add_count i c v) = v_pt v.
Proof. reflexivity. Qed.
Lemma vlin_add h r c v : vlin h (add_count (r + 1) c v) = vlin h v + if (-1 <=? r) && (r <=? 2) then c * h r (v_pt v) else 0.
Proof.
  unfold vlin. rewrite add_pt. unfold add_count. cbn [v_down v_flat v_up v_vert].
  destruct (Z.eq_dec r (-1)) as [->|N0]; [cbn [Z.eqb Z.add Z.pos_sub Pos.eqb Z.leb Z.compare andb Pos.compare Pos.compare_cont CompOpp Z.opp]; lia|].
  destruct (Z.eq_dec r 0) as [->|N1]; [cbn [Z.eqb Z.add Pos.eqb Z.leb Z.compare andb]; lia|].
  destruct (Z.eq_dec r 1) as [->|N2]; [replace ((-1 <=? 1) && (1 <=? 2)) with true by reflexivity; change (1 + 1) with 2; cbn [Z.eqb Pos.eqb]; lia|].
  destruct (Z.eq_dec r 2) as [->|N3]; [replace ((-1 <=? 2) && (2 <=? 2)) with true by reflexivity; change (2 + 1) with 3; cbn [Z.eqb Pos.eqb]; lia|].
  assert (r + 1 =? 0 = false) as -> by lia. assert (r + 1 =? 1 = false) as -> by lia. assert (r + 1 =? 2 = false) as -> by lia. assert (r + 1 =? 3 = false) as -> by lia. assert ((-1 <=? r) && (r <=? 2) = false) as -> by lia. lia.
Qed.
Lemma vlin_of h q : vlin h (vertex_of q) = olin h q.
Proof. destruct q as [p [r c]]. unfold vertex_of. cbn [fst snd]. rewrite vlin_add. unfold vlin. cbn [v_down v_flat v_up v_vert v_pt]. unfold olin. lia. Qed.
Lemma out_add_tot h q l : tot (fun e => vlin h (fst e)) (out_add q l) = olin h q + tot (fun e => vlin h (fst e)) l.
Proof.
  induction l as [|[v n] l IH]; cbn [out_add tot fst]; [rewrite vlin_of; lia|].
  destruct (pt_eqb (v_pt v) (fst q)) eqn:E; [apply pt_eqb_iff in E|destruct (pt_ltb (fst q) (v_pt v))]; cbn [tot fst].
  - rewrite vlin_add, E. destruct q as [p [r c]]. unfold olin. cbn [fst snd]. lia.
  - rewrite vlin_of. lia.
  - rewrite IH. lia.
Qed.
Lemma out_tot h o : tot (fun e => vlin h (fst e)) (fold_right out_add [] o) = tot (olin h) o.
Proof. induction o as [|q o IH]; [reflexivity|]. cbn [fold_right tot]. rewrite out_add_tot, IH. reflexivity. Qed.
Lemma compact_tot h o : tot (vlin h) (compact45 o) = tot (olin h) o.
Proof.
  rewrite <- out_tot. unfold compact45. rewrite tot_map. induction (fold_right out_add [] o) as [|[v n] l IH]; [reflexivity|]. cbn [filter tot fst snd].
  destruct ((n =? 2)%nat && no_counts v) eqn:E; cbn [negb tot fst]; rewrite IH; [|reflexivity]. apply andb_true_iff in E as [_ E]. unfold no_counts in E. assert (Z0 : v_down v = 0 /\ v_flat v = 0 /\ v_up v = 0 /\ v_vert v = 0) by lia. destruct Z0 as [H0 [H1 [H2 H3]]]. unfold vlin. rewrite H0, H1, H2, H3. lia.
Qed.
Lemma out_add_in q l e : In e (out_add q l) -> v_pt (fst e) = fst q \/ exists e', In e' l /\ v_pt (fst e') = v_pt (fst e).
Proof.
  induction l as [|[v n] l IH]; cbn [out_add]; [intros [<-|[]]; left; reflexivity|].
  destruct (pt_eqb (v_pt v) (fst q)) eqn:E; [apply pt_eqb_iff in E|destruct (pt_ltb (fst q) (v_pt v))].
  - intros [<-|I]; [left; exact E|right; exists e; split; [right; exact I|reflexivity]].
  - intros [<-|I]; [left; reflexivity|right; exists e; split; [exact I|reflexivity]].
  - intros [<-|I]; [right; exists (v, n); split; [left|]; reflexivity|]. destruct (IH I) as [H|[e' [H1 H2]]]; [left; exact H|right; exists e'; split; [right|]; assumption].
Qed.
Lemma out_add_sorted q l : StronglySorted (fun a b : v45 * nat => pt_lt (v_pt (fst a)) (v_pt (fst b))) l -> StronglySorted (fun a b : v45 * nat => pt_lt (v_pt (fst a)) (v_pt (fst b))) (out_add q l).
Proof.
  induction 1 as [|[v n] l S IH F]; cbn [out_add]; [constructor; constructor|]. rewrite Forall_forall in F.
  destruct (pt_eqb (v_pt v) (fst q)) eqn:E; [apply pt_eqb_iff in E|destruct (pt_ltb (fst q) (v_pt v)) eqn:L].
  - constructor; [exact S|]. rewrite Forall_forall. intros b B. exact (F b B).
  - apply pt_ltb_iff in L. constructor; [constructor; [exact S|rewrite Forall_forall; exact F]|]. rewrite Forall_forall. intros b [<-|B]; [exact L|]. eapply pt_lt_trans; [exact L|apply (F b B)].
  - constructor; [exact IH|]. rewrite Forall_forall. intros b B. apply out_add_in in B as [B|[e [B1 B2]]].
    + rewrite B. cbn [fst]. apply pt_ltb_iff. destruct (pt_ltb (v_pt v) (fst q)) eqn:L2; [reflexivity|]. assert (v_pt v = fst q) as Ev by (apply pt_total; assumption). apply pt_eqb_iff in Ev. congruence.
    + rewrite <- B2. exact (F e B1).
Qed.
Lemma compact_sorted o : strictly_in_order (compact45 o).
Proof.
  unfold strictly_in_order, compact45. assert (S : StronglySorted (fun a b : v45 * nat => pt_lt (v_pt (fst a)) (v_pt (fst b))) (fold_right out_add [] o)) by (induction o; [constructor|apply out_add_sorted; assumption]).
  apply strong_map. apply filter_sorted. exact S.
Qed.
Lemma sorted_one f l v : strictly_in_order l -> In v l -> (forall w, In w l -> v_pt w <> v_pt v -> f w = 0) -> tot f l = f v.
Proof.
  induction 1 as [|a l S IH F]; [intros []|]. rewrite Forall_forall in F. assert (N : forall w, In w l -> v_pt w <> v_pt a) by (intros w I E; specialize (F w I); rewrite E in F; unfold pt_lt in F; lia).
  intros [<-|I] H; cbn [tot].
  - rewrite tot_zero; [lia|]. intros w I. apply H; [right; exact I|exact (N w I)].
  - rewrite IH; [|exact I|intros w J; apply H; right; exact J]. rewrite (H a (or_introl eq_refl)); [lia|]. intros E. apply (N v I). symmetry. exact E.
Qed.
Lemma compact_balanced o : tidy o -> Forall balanced (compact45 o).
Proof.
  intros T. rewrite Forall_forall. intros v I. set (p := v_pt v).
  set (h := fun (r : Z) (q : point) => if pt_eqb q p then if r =? 2 then 1 else -1 else 0).
  assert (E : tot (vlin h) (compact45 o) = vlin h v).
  { apply sorted_one; [apply compact_sorted|exact I|]. intros w _ N. unfold vlin, h. assert (pt_eqb (v_pt w) p = false) as -> by (apply not_true_iff_false; intros Q; apply pt_eqb_iff in Q; contradiction). lia. }
  rewrite compact_tot in E. set (H := fun y => if y =? py p then 1 else 0). destruct (T (px p)) as [T1 _]. specialize (T1 H).
  assert (E2 : tot (olin h) o = vsum H (atx (px p) o) - osum (onh (px p) H) (atx (px p) o)).
  { clear. induction o as [|[q [r c]] o IH]; [reflexivity|]. cbn [tot]. rewrite IH. unfold atx. cbn [filter fst]. destruct (px q =? px p) eqn:X.
    - unfold vsum, osum. cbn [tot]. unfold vsum1 at 2, osum1 at 2, olin, h, onh, H, line_at. cbn [fst snd].
      replace (pt_eqb q p) with (py q =? py p) by (unfold pt_eqb; rewrite X; reflexivity). replace (r * px p + (py q - r * px q)) with (py q) by (assert (px q = px p) as -> by lia; ring).
      destruct (Z.eq_dec r 2) as [->|N]; [cbn [Z.eqb Pos.eqb]; replace ((-1 <=? 2) && (2 <=? 2)) with true by reflexivity; replace ((-1 <=? 2) && (2 <=? 1)) with false by reflexivity; destruct (py q =? py p); lia|].
      assert (r =? 2 = false) as -> by lia. replace ((-1 <=? r) && (r <=? 2)) with ((-1 <=? r) && (r <=? 1)) by lia. destruct ((-1 <=? r) && (r <=? 1)), (py q =? py p); lia.
    - unfold olin, h. assert (pt_eqb q p = false) as -> by (apply not_true_iff_false; intros Q; apply pt_eqb_iff in Q; rewrite Q in X; lia). destruct (_ && _); lia. }
  rewrite E2, T1 in E. unfold vlin, h in E. fold p in E. rewrite (proj2 (pt_eqb_iff p p) eq_refl) in E. cbn [Z.eqb Pos.eqb] in E. unfold balanced. lia.
Qed.
Lemma compact_column o x : tidy o -> column_total x (compact45 o) = 0.
Proof.
  intros T. destruct (T x) as [_ T2]. set (h := fun (r : Z) (q : point) => if (r =? 2) && (px q =? x) then 1 else 0).
  transitivity (tot (vlin h) (compact45 o)); [apply tot_ext; intros v _; unfold vlin, h; cbn [Z.eqb Pos.eqb andb]; destruct (px (v_pt v) =? x); lia|].
  rewrite compact_tot, <- T2. clear. induction o as [|[q [r c]] o IH]; [reflexivity|]. cbn [tot]. rewrite IH. unfold atx. cbn [filter fst]. unfold olin, h. destruct (px q =? x) eqn:X.
  - unfold vsum. cbn [tot]. unfold vsum1 at 2. destruct (Z.eq_dec r 2) as [->|N]; [cbn [Z.eqb Pos.eqb andb]; replace ((-1 <=? 2) && (2 <=? 2)) with true by reflexivity; lia|]. assert (r =? 2 = false) as -> by lia. cbn [andb]. destruct (_ && _); lia.
  - rewrite andb_false_r. destruct (_ && _); lia.
Qed.
Lemma compact_line o r b : -1 <= r <= 1 -> line_total r b (compact45 o) = osum (ind (r, b)) o.
Proof.
  intros R. set (h := fun (s : Z) (q : point) => if (s =? r) && (py q =? r * px q + b) then 1 else 0).
  transitivity (tot (vlin h) (compact45 o)).
  - apply tot_ext. intros v _. unfold vlin, h, slope_count. assert (2 =? r = false) as -> by lia. destruct (py (v_pt v) =? r * px (v_pt v) + b); rewrite ?andb_false_r, ?andb_true_r; cbn [andb]; [|lia].
    destruct (Z.eq_dec r (-1)) as [->|N0]; [cbn [Z.eqb Pos.eqb]; lia|]. destruct (Z.eq_dec r 0) as [->|N1]; [cbn [Z.eqb Pos.eqb]; lia|]. assert (r = 1) as -> by lia. cbn [Z.eqb Pos.eqb]. lia.
  - rewrite compact_tot. apply tot_ext. intros [q [s c]] _. unfold olin, osum1, h, ind, line_at. cbn [fst snd]. destruct (s =? r) eqn:E; cbn [andb].
    + assert (s = r) as -> by lia. assert ((-1 <=? r) && (r <=? 2) = true) as -> by lia. assert ((-1 <=? r) && (r <=? 1) = true) as -> by lia. replace (py q - r * px q =? b) with (py q =? r * px q + b) by lia. reflexivity.
    + destruct (_ && (s <=? 2)), (_ && (s <=? 1)); lia.
Qed.
Lemma compact_depth o t y : depth45 (compact45 o) t y = odep t y o.
Proof.
  set (h := fun (s : Z) (q : point) => if rleb (IZR (px q)) t then if (s =? 2) then 0 else if line_below (IZR s) q t y then 1 else 0 else 0).
  transitivity (tot (vlin h) (compact45 o)).
  - apply tot_ext. intros v _. unfold v45_depth, vlin, h. cbn [Z.eqb Pos.eqb]. destruct (rleb _ _); [|lia]. repeat (destruct (line_below _ _ _ _)); lia.
  - rewrite compact_tot. apply tot_ext. intros [q [s c]] _. unfold olin, osum1, h. cbn [fst]. rewrite Fd_below. destruct (rleb _ _); [|destruct (_ && _); lia]. destruct (Z.eq_dec s 2) as [->|N].
    + cbn [Z.eqb Pos.eqb]. replace ((-1 <=? 2) && (2 <=? 2)) with true by reflexivity. replace ((-1 <=? 2) && (2 <=? 1)) with false by reflexivity. lia.
    + assert (s =? 2 = false) as -> by lia. replace ((-1 <=? s) && (s <=? 2)) with ((-1 <=? s) && (s <=? 1)) by lia. reflexivity.
Qed.

Lemma run_good keep a b : keep cz = false -> in_order a -> in_order b -> boundary45 a -> boundary45 b ->
  good (run o <- scan_all keep (merge45 a b); Fine (finish45 o)) (fun r =>
    (forall x y, depth45 (fst r) x y = keepz keep (depth45 a x y, depth45 b x y)) /\ boundary45 (fst r) /\ strictly_in_order (fst r) /\ (snd r = true <-> rectilinear45 (fst r))).
Proof.
  intros K SA SB BA BB. destruct (BA) as [A1 [A2 A3]], (BB) as [B1 [B2 B3]].
  eapply good_bind; [apply (scan_all_good keep K (merge45 a b))|].
  - apply merge45_sorted; assumption.
  - apply merge45_delta; assumption.
  - intros X. rewrite merge45_columns, A3, B3. reflexivity.
  - intros g ln Ag. rewrite (merge45_lines g ln a b Ag), (line_total_0 _ _ a BA), (line_total_0 _ _ b BB). apply Ag.
  - intros o [O1 [O2 O3]]. cbn [good finish45 fst snd]. split; [|split; [|split]].
    + intros x y. rewrite compact_depth, O1. destruct (merge45_depth x y a b) as [-> ->]. reflexivity.
    + split; [apply compact_balanced, O3|]. split; [intros r c R; rewrite (compact_line o r c R); apply O2|intros x; apply compact_column, O3].
    + apply compact_sorted.
    + rewrite forallb_forall. unfold rectilinear45. rewrite Forall_forall. split; intros H v I; specialize (H v I); unfold is_45, axis_vertex in *; lia.
Qed.
