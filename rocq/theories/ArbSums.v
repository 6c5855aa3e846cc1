(* Sums of the counts of edges: what closed curves cover is the same along an edge. *)
From Verif Require Import Base Poly90Spec GeoSpec SnapSpec ArbSpec ArbOrder.
From Coq Require Import Reals Lra.

Section sums.
  Context {A : Type}.
  Lemma tot_ext (f g : A -> Z) l : (forall a, In a l -> f a = g a) -> tot f l = tot g l.
  Proof. induction l as [|a l IH]; intros H; cbn [tot]; [reflexivity|]. rewrite (H a (or_introl eq_refl)), IH; [reflexivity|]. intros b B. apply H. right. exact B. Qed.
  Lemma tot_add (f g : A -> Z) l : tot (fun a => f a + g a) l = tot f l + tot g l.
  Proof. induction l as [|a l IH]; cbn [tot]; lia. Qed.
  Lemma tot_sub (f g : A -> Z) l : tot (fun a => f a - g a) l = tot f l - tot g l.
  Proof. induction l as [|a l IH]; cbn [tot]; lia. Qed.
  Lemma tot_app (f : A -> Z) l m : tot f (l ++ m) = tot f l + tot f m.
  Proof. induction l as [|a l IH]; cbn [tot app]; lia. Qed.
  Lemma tot_zero (f : A -> Z) l : (forall a, In a l -> f a = 0) -> tot f l = 0.
  Proof. induction l as [|a l IH]; intros H; cbn [tot]; [reflexivity|]. rewrite (H a (or_introl eq_refl)), IH; [reflexivity|]. intros b B. apply H. right. exact B. Qed.
End sums.
Lemma tot_swap {A B : Type} (f : A -> B -> Z) l m : tot (fun a => tot (fun b => f a b) m) l = tot (fun b => tot (fun a => f a b) l) m.
Proof.
  induction l as [|a l IH]; cbn [tot].
  - symmetry. apply tot_zero. reflexivity.
  - rewrite IH, <- tot_add. reflexivity.
Qed.
Lemma tot_map {A B : Type} (g : A -> B) (f : B -> Z) l : tot f (map g l) = tot (fun a => f (g a)) l.
Proof. induction l as [|a l IH]; cbn [tot map]; congruence. Qed.

Lemma eq_pt_iff p q : eq_pt p q = true <-> p = q.
Proof.
  unfold eq_pt. rewrite andb_true_iff, !Z.eqb_eq. destruct p as [a b], q as [c d]. cbn [px py]. split; [intros [-> ->]; reflexivity|]. intros H. assert (a = c /\ b = d) by (split; congruence). assumption.
Qed.
Lemma pt_dec (p q : point) : {p = q} + {p <> q}.
Proof. destruct (eq_pt p q) eqn:H; [left; apply eq_pt_iff, H|right; intros K; apply eq_pt_iff in K; congruence]. Qed.
Definition eq_seg (s t : seg) : bool := eq_pt (s_low s) (s_low t) && eq_pt (s_high s) (s_high t).
Lemma eq_seg_iff s t : eq_seg s t = true <-> s = t.
Proof.
  unfold eq_seg. rewrite andb_true_iff, !eq_pt_iff. destruct s as [a b], t as [c d]. cbn [s_low s_high]. split; [intros [-> ->]; reflexivity|]. intros H. split; congruence.
Qed.
Lemma pick_one (p : point) (c : Z) vs : NoDup vs -> tot (fun v => if eq_pt p v then c else 0) vs = if in_dec pt_dec p vs then c else 0.
Proof.
  induction vs as [|v vs IH]; intros N; [reflexivity|]. inversion N as [|? ? N1 N2]; subst. cbn [tot]. rewrite IH by exact N2. clear IH.
  destruct (eq_pt p v) eqn:Q.
  - apply eq_pt_iff in Q. subst v. destruct (in_dec pt_dec p vs) as [I|I]; [contradiction|]. destruct (in_dec pt_dec p (p :: vs)) as [J|J]; [lia|]. exfalso. apply J. left. reflexivity.
  - assert (p <> v) as D by (intros K; apply eq_pt_iff in K; congruence). destruct (in_dec pt_dec p vs) as [I|I], (in_dec pt_dec p (v :: vs)) as [J|J]; try lia.
    + exfalso. apply J. right. exact I.
    + exfalso. destruct J as [J|J]; [congruence|contradiction].
Qed.

Lemma half_in n : (IZR n < IZR n + / 2 < IZR n + 1)%R.
Proof. lra. Qed.
Lemma izr_half_lt a n : (IZR a < IZR n + / 2)%R <-> a <= n.
Proof.
  split; intros H.
  - assert (IZR a < IZR (n + 1))%R by (rewrite plus_IZR; lra). apply lt_IZR in H0. lia.
  - apply IZR_le in H. lra.
Qed.
Lemma izr_half_gt a n : (IZR n + / 2 < IZR a)%R <-> n < a.
Proof.
  split; intros H.
  - apply lt_IZR. lra.
  - assert (n + 1 <= a) as K by lia. apply IZR_le in K. rewrite plus_IZR in K. lra.
Qed.

Section closed.
  Variable l : list medge.
  Hypothesis nod : noded (map fst l).
  Hypothesis ord : forall e, In e l -> ordered (fst e).
  Hypothesis clo : closed l.
  Let E : list seg := map fst l.
  Lemma ordE s : In s E -> ordered s.
  Proof. intros H. apply in_map_iff in H as [e [<- H]]. apply ord, H. Qed.
  Lemma inE e : In e l -> In (fst e) E.
  Proof. intros H. apply in_map, H. Qed.

  (* any set of vertices *)
  Lemma closed_pred k (P : point -> bool) :
    tot (fun e => if P (s_low (fst e)) then along k e else 0) l = tot (fun e => if P (s_high (fst e)) then along k e else 0) l.
  Proof.
    set (vs := filter P (nodup pt_dec (map (fun e => s_low (fst e)) l ++ map (fun e => s_high (fst e)) l))).
    assert (ND : NoDup vs) by (apply NoDup_filter, NoDup_nodup).
    assert (IV : forall v, In v vs <-> (exists e, In e l /\ (s_low (fst e) = v \/ s_high (fst e) = v)) /\ P v = true).
    { intros v. unfold vs. rewrite filter_In, nodup_In, in_app_iff, !in_map_iff. split.
      - intros [[[e [H1 H2]]|[e [H1 H2]]] H3]; (split; [exists e; auto|exact H3]).
      - intros [[e [H1 [H2|H2]]] H3]; (split; [|exact H3]); [left|right]; exists e; auto. }
    assert (Q : tot (fun v => tot (fun e => if eq_pt (s_low (fst e)) v then along k e else 0) l) vs = tot (fun v => tot (fun e => if eq_pt (s_high (fst e)) v then along k e else 0) l) vs).
    { apply tot_ext. intros v _. apply clo. }
    rewrite !(tot_swap _ vs l) in Q. etransitivity; [|etransitivity; [exact Q|]]; apply tot_ext; intros e He; rewrite pick_one by exact ND.
    - destruct (in_dec pt_dec (s_low (fst e)) vs) as [I|I].
      + apply IV in I as [_ I]. rewrite I. reflexivity.
      + destruct (P (s_low (fst e))) eqn:Pe; [|reflexivity]. exfalso. apply I, IV. split; [exists e; auto|exact Pe].
    - destruct (in_dec pt_dec (s_high (fst e)) vs) as [I|I].
      + apply IV in I as [_ I]. rewrite I. reflexivity.
      + destruct (P (s_high (fst e))) eqn:Pe; [|reflexivity]. exfalso. apply I, IV. split; [exists e; auto|exact Pe].
  Qed.

  (* the counts of the vertical edges just below (x, h) *)
  Definition vcov (x : Z) (h : R) (s : seg) : bool := vertical_edge s && (px (s_low s) =? x) && rltb (IZR (py (s_low s))) h && rleb h (IZR (py (s_high s))).
  Definition vert k (x : Z) (h : R) : Z := tot (fun e => if vcov x h (fst e) then wt k e else 0) l.
  Lemma vcov_iff x h s : vcov x h s = true <-> px (s_low s) = x /\ px (s_high s) = x /\ (IZR (py (s_low s)) < h <= IZR (py (s_high s)))%R.
  Proof. unfold vcov. rewrite !andb_true_iff, vertical_edge_iff, Z.eqb_eq, rltb_iff, rleb_iff. intuition congruence. Qed.
  Lemma spans_r_iff s x : spans_r s x = true <-> (IZR (px (s_low s)) <= x < IZR (px (s_high s)))%R.
  Proof. unfold spans_r. rewrite andb_true_iff, rleb_iff, rltb_iff. reflexivity. Qed.
  Lemma spans_l_iff s x : spans_l s x = true <-> (IZR (px (s_low s)) < x <= IZR (px (s_high s)))%R.
  Proof. unfold spans_l. rewrite andb_true_iff, rleb_iff, rltb_iff. reflexivity. Qed.
  Lemma spans_rz s x : spans_r s (IZR x) = true <-> px (s_low s) <= x < px (s_high s).
  Proof. rewrite spans_r_iff. split; intros [H K]; split; first [apply le_IZR; assumption|apply lt_IZR; assumption|apply IZR_le; assumption|apply IZR_lt; assumption]. Qed.
  Lemma spans_lz s x : spans_l s (IZR x) = true <-> px (s_low s) < x <= px (s_high s).
  Proof. rewrite spans_l_iff. split; intros [H K]; split; first [apply le_IZR; assumption|apply lt_IZR; assumption|apply IZR_le; assumption|apply IZR_lt; assumption]. Qed.
  Lemma bool_of (b : bool) (P : Prop) : (b = true <-> P) -> P -> b = true.
  Proof. tauto. Qed.
  Lemma bool_not (b : bool) (P : Prop) : (b = true <-> P) -> ~ P -> b = false.
  Proof. destruct b; [|reflexivity]. intros [H _] K. exfalso. apply K, H. reflexivity. Qed.
  Lemma bool_eq (a b : bool) : (a = true <-> b = true) -> a = b.
  Proof. destruct a, b; intuition congruence. Qed.

  Lemma green k (x : Z) (h : R) : depth_below l k (IZR x) h = depth_below_left l k (IZR x) h + vert k x h.
  Proof.
    pose proof (closed_pred k (fun v => (px v =? x) && rltb (IZR (py v)) h)) as C. cbv beta in C.
    unfold depth_below, depth_below_left, vert.
    enough (tot (fun e => (if spans_r (fst e) (IZR x) && rltb (height (fst e) (IZR x)) h then wt k e else 0) - (if spans_l (fst e) (IZR x) && rltb (height (fst e) (IZR x)) h then wt k e else 0) - (if vcov x h (fst e) then wt k e else 0)) l
      = tot (fun e => (if (px (s_low (fst e)) =? x) && rltb (IZR (py (s_low (fst e)))) h then along k e else 0) - (if (px (s_high (fst e)) =? x) && rltb (IZR (py (s_high (fst e)))) h then along k e else 0)) l) as Q.
    { rewrite !tot_sub in Q. lia. }
    apply tot_ext. intros e He. pose proof (ord e He) as O. unfold along. destruct e as [s w]. cbn [fst] in *. generalize (wt k (s, w)). intros c.
    pose proof (spans_rz s x) as SR. pose proof (spans_lz s x) as SL. pose proof (vcov_iff x h s) as V. apply ordered_iff in O.
    destruct (vertical_edge s) eqn:VE.
    - apply vertical_edge_iff in VE. rewrite (bool_not _ _ SR) by lia. rewrite (bool_not _ _ SL) by lia. cbn [andb]. rewrite <- VE. clear SR SL.
      destruct (Z.eqb_spec (px (s_low s)) x) as [X|X]; cbn [andb].
      + assert (L : (IZR (py (s_low s)) < IZR (py (s_high s)))%R) by (apply IZR_lt; lia).
        unfold rltb. destruct (Rlt_dec (IZR (py (s_low s))) h) as [A|A], (Rlt_dec (IZR (py (s_high s))) h) as [B|B].
        * rewrite (bool_not _ _ V) by lra. lia.
        * rewrite (bool_of _ _ V); [lia|]. split; [exact X|]. split; [congruence|]. lra.
        * lra.
        * rewrite (bool_not _ _ V) by lra. lia.
      + rewrite (bool_not _ _ V) by tauto. lia.
    - assert (NV : px (s_low s) <> px (s_high s)) by (intros K; apply vertical_edge_iff in K; congruence). rewrite (bool_not _ _ V) by (intros [? [? _]]; congruence).
      assert (L : px (s_low s) < px (s_high s)) by lia. pose proof (height_low s) as HL. pose proof (height_high s L) as HH.
      destruct (Z.eqb_spec (px (s_low s)) x) as [X|X]; destruct (Z.eqb_spec (px (s_high s)) x) as [Y|Y]; cbn [andb]; try lia.
      + rewrite (bool_of _ _ SR) by lia. rewrite (bool_not _ _ SL) by lia. cbn [andb]. rewrite X in HL. rewrite HL. lia.
      + rewrite (bool_not _ _ SR) by lia. rewrite (bool_of _ _ SL) by lia. cbn [andb]. rewrite Y in HH. rewrite HH. lia.
  Qed.
  (* all edges at one abscissa *)
  Lemma all_left k (x : R) (h : R) : (forall e, In e l -> spans_l (fst e) x = true -> (height (fst e) x < h)%R) -> depth_below_left l k x h = 0.
  Proof.
    intros H. pose proof (closed_pred k (fun v => rltb (IZR (px v)) x)) as C. cbv beta in C.
    enough (depth_below_left l k x h = tot (fun e => (if rltb (IZR (px (s_low (fst e)))) x then along k e else 0) - (if rltb (IZR (px (s_high (fst e)))) x then along k e else 0)) l) as ->.
    { rewrite tot_sub. lia. }
    apply tot_ext. intros e He. specialize (H e He). pose proof (ord e He) as O. unfold along. destruct e as [s w]. cbn [fst] in *. generalize (wt k (s, w)). intros c.
    pose proof (spans_l_iff s x) as SL. apply ordered_iff in O. destruct (vertical_edge s) eqn:VE.
    - apply vertical_edge_iff in VE. rewrite (bool_not _ _ SL) by (rewrite VE; lra). cbn [andb]. rewrite VE. lia.
    - assert (NV : px (s_low s) <> px (s_high s)) by (intros K; apply vertical_edge_iff in K; congruence).
      assert (L : (IZR (px (s_low s)) < IZR (px (s_high s)))%R) by (apply IZR_lt; lia). unfold rltb at 2 3.
      destruct (Rlt_dec (IZR (px (s_low s))) x) as [A|A], (Rlt_dec (IZR (px (s_high s))) x) as [B|B].
      + rewrite (bool_not _ _ SL) by lra. cbn [andb]. lia.
      + assert (SL' : spans_l s x = true) by (apply SL; lra). rewrite SL' in *. cbn [andb]. rewrite (proj2 (rltb_iff _ _)) by (apply H; reflexivity). lia.
      + lra.
      + rewrite (bool_not _ _ SL) by lra. cbn [andb]. lia.
  Qed.
  Lemma none_left k (x : R) (h : R) : (forall e, In e l -> spans_l (fst e) x = true -> (h <= height (fst e) x)%R) -> depth_below_left l k x h = 0.
  Proof.
    intros H. apply tot_zero. intros e He. specialize (H e He). destruct (spans_l (fst e) x); [|reflexivity]. specialize (H eq_refl). cbn [andb].
    rewrite (bool_not _ _ (rltb_iff _ _)) by lra. reflexivity.
  Qed.

  Definition own k (e : seg) : Z := tot (fun f => if eq_seg (fst f) e then wt k f else 0) l.
  (* depth below e, where it begins *)
  Definition cumb k (e : seg) : Z := depth_below l k (IZR (px (s_low e)) + / 2) (height e (IZR (px (s_low e)) + / 2)).
  Definition cum k (e : seg) : Z := cumb k e + own k e.

  Lemma above_below k e x : In e E -> inr e x -> depth_above l k x (height e x) = depth_below l k x (height e x) + own k e.
  Proof.
    intros He I. unfold depth_above, depth_below, own. rewrite <- tot_add. apply tot_ext. intros f Hf. pose proof (inE f Hf) as Hf'. destruct f as [s w]. cbn [fst] in *. generalize (wt k (s, w)). intros c.
    destruct (eq_seg s e) eqn:Q.
    - apply eq_seg_iff in Q. subst s. rewrite (proj2 (spans_r_iff e x)) by (unfold inr in I; lra). cbn [andb]. rewrite (proj2 (rleb_iff _ _)) by lra. rewrite (bool_not _ _ (rltb_iff _ _)) by lra. lia.
    - destruct (spans_r s x) eqn:S; [|cbn [andb]; lia]. cbn [andb]. apply spans_r_iff in S.
      rewrite (bool_eq (rleb (height s x) (height e x)) (rltb (height s x) (height e x))); [lia|]. rewrite rleb_iff, rltb_iff. split; [|lra]. intros [H|H]; [exact H|]. exfalso.
      assert (L : px (s_low s) < px (s_high s)) by (apply lt_IZR; lra).
      assert (s = e); [|subst s; assert (eq_seg e e = true) by (apply eq_seg_iff; reflexivity); congruence].
      apply (touch E nod ordE e s x He Hf' I). rewrite <- H. apply on_height; [exact L|]. unfold inc. lra.
  Qed.
  (* two abscissas of the same unit interval *)
  Lemma slab_pair e f n x : In e E -> In f E -> px (s_low e) <= n < px (s_high e) -> px (s_low f) <= n < px (s_high f) -> inr e x -> inc f x ->
    (IZR n <= x < IZR n + 1)%R -> (height f x < height e x <-> height f (IZR n + / 2) < height e (IZR n + / 2))%R.
  Proof.
    intros He Hf A B I J X.
    assert (IE : inr e (IZR n + / 2)) by (split; [apply izr_half_lt|apply izr_half_gt]; lia).
    assert (IF : inr f (IZR n + / 2)) by (split; [apply izr_half_lt|apply izr_half_gt]; lia).
    destruct (lte_total E nod ordE e f _ He Hf IE IF) as [->|[H|H]].
    - lra.
    - pose proof (lte_at E nod ordE e f _ He Hf H IE IF). destruct H as [x1 [P [Q R]]]. pose proof (order_lt E nod ordE e f x1 x He Hf P Q R I J). lra.
    - pose proof (lte_at E nod ordE f e _ Hf He H IF IE). destruct H as [x1 [P [Q R]]]. pose proof (order_lt' E nod ordE f e x1 x Hf He P Q R J I). lra.
  Qed.
  Lemma below_slab k e n x : In e E -> px (s_low e) <= n < px (s_high e) -> inr e x -> (IZR n <= x < IZR n + 1)%R ->
    depth_below l k x (height e x) = depth_below l k (IZR n + / 2) (height e (IZR n + / 2)).
  Proof.
    intros He A I X. unfold depth_below. apply tot_ext. intros f Hf. pose proof (inE f Hf) as Hf'. destruct f as [s w]. cbn [fst] in *. generalize (wt k (s, w)). intros c.
    assert (S1 : spans_r s x = true <-> px (s_low s) <= n < px (s_high s)).
    { rewrite spans_r_iff. split; intros [P Q].
      - split; [assert (IZR (px (s_low s)) < IZR (n + 1))%R by (rewrite plus_IZR; lra); apply lt_IZR in H; lia|apply lt_IZR; lra].
      - apply IZR_le in P. assert (n + 1 <= px (s_high s)) as Q' by lia. apply IZR_le in Q'. rewrite plus_IZR in Q'. lra. }
    assert (S2 : spans_r s (IZR n + / 2) = true <-> px (s_low s) <= n < px (s_high s)).
    { rewrite spans_r_iff. rewrite izr_half_gt. split; intros [P Q]; (split; [|exact Q]).
      - assert (IZR (px (s_low s)) < IZR (n + 1))%R by (rewrite plus_IZR; lra). apply lt_IZR in H. lia.
      - apply IZR_le in P. lra. }
    rewrite (bool_eq (spans_r s x) (spans_r s (IZR n + / 2))) by (rewrite S1, S2; reflexivity).
    destruct (spans_r s (IZR n + / 2)) eqn:S; [|reflexivity]. cbn [andb]. pose proof (proj1 S2 eq_refl) as B. pose proof (proj2 S1 B) as S'. apply spans_r_iff in S'.
    rewrite (bool_eq (rltb (height s x) (height e x)) (rltb (height s (IZR n + / 2)) (height e (IZR n + / 2)))); [reflexivity|]. rewrite !rltb_iff. apply slab_pair; try assumption. unfold inc. lra.
  Qed.
  Lemma spans_before s n : spans_r s (IZR (n - 1) + / 2) = true <-> px (s_low s) < n <= px (s_high s).
  Proof.
    rewrite spans_r_iff, izr_half_gt. split; intros [P Q].
    - assert (IZR (px (s_low s)) < IZR n)%R by (rewrite minus_IZR in P; lra). apply lt_IZR in H. lia.
    - split; [|lia]. assert (px (s_low s) <= n - 1) as P' by lia. apply IZR_le in P'. lra.
  Qed.
  Lemma left_slab k e n : In e E -> px (s_low e) < n < px (s_high e) ->
    depth_below_left l k (IZR n) (height e (IZR n)) = depth_below l k (IZR (n - 1) + / 2) (height e (IZR (n - 1) + / 2)).
  Proof.
    intros He A. unfold depth_below, depth_below_left. apply tot_ext. intros f Hf. pose proof (inE f Hf) as Hf'. destruct f as [s w]. cbn [fst] in *. generalize (wt k (s, w)). intros c.
    rewrite (bool_eq (spans_l s (IZR n)) (spans_r s (IZR (n - 1) + / 2))) by (rewrite spans_lz, spans_before; reflexivity).
    destruct (spans_r s (IZR (n - 1) + / 2)) eqn:S; [|reflexivity]. cbn [andb]. apply spans_before in S.
    rewrite (bool_eq (rltb (height s (IZR n)) (height e (IZR n))) (rltb (height s (IZR (n - 1) + / 2)) (height e (IZR (n - 1) + / 2)))); [reflexivity|]. rewrite !rltb_iff.
    assert (IE : inr e (IZR (n - 1) + / 2)) by (split; [apply izr_half_lt|apply izr_half_gt]; lia).
    assert (IF : inr s (IZR (n - 1) + / 2)) by (split; [apply izr_half_lt|apply izr_half_gt]; lia).
    assert (I : inr e (IZR n)) by (split; apply IZR_lt; lia). assert (J : inc s (IZR n)) by (split; apply IZR_le; lia).
    destruct (lte_total E nod ordE e s _ He Hf' IE IF) as [->|[H|H]].
    - lra.
    - pose proof (lte_at E nod ordE e s _ He Hf' H IE IF). destruct H as [x1 [P [Q R]]]. pose proof (order_lt E nod ordE e s x1 _ He Hf' P Q R I J). lra.
    - pose proof (lte_at E nod ordE s e _ Hf' He H IF IE). destruct H as [x1 [P [Q R]]]. pose proof (order_lt' E nod ordE s e x1 _ Hf' He P Q R J I). lra.
  Qed.
  Lemma vert_inside k e n : In e E -> px (s_low e) < n < px (s_high e) -> vert k n (height e (IZR n)) = 0.
  Proof.
    intros He A. apply tot_zero. intros f Hf. pose proof (inE f Hf) as Hf'. destruct f as [s w]. cbn [fst] in *. destruct (vcov n (height e (IZR n)) s) eqn:V; [|reflexivity]. exfalso. apply vcov_iff in V as [V1 [V2 V3]].
    assert (s = e); [|subst s; lia]. apply (touch E nod ordE e s (IZR n) He Hf'); [split; apply IZR_lt; lia|].
    rewrite <- V1. apply on_vertical; [apply vertical_edge_iff; congruence|rewrite V1; lra].
  Qed.
  Lemma cumb_half k e m : In e E -> px (s_low e) + Z.of_nat m < px (s_high e) ->
    depth_below l k (IZR (px (s_low e) + Z.of_nat m) + / 2) (height e (IZR (px (s_low e) + Z.of_nat m) + / 2)) = cumb k e.
  Proof.
    intros He. induction m as [|m IH]; intros H.
    - cbn [Z.of_nat]. rewrite Z.add_0_r. reflexivity.
    - rewrite <- IH by lia. set (n := px (s_low e) + Z.of_nat (S m)).
      assert (A : px (s_low e) < n < px (s_high e)) by (unfold n; lia).
      replace (px (s_low e) + Z.of_nat m) with (n - 1) by (unfold n; lia). rewrite <- left_slab by assumption.
      rewrite <- (below_slab k e n (IZR n)); [|assumption|lia|split; apply IZR_lt; lia|lra].
      rewrite green, vert_inside by assumption. lia.
  Qed.
  (* the same along the whole edge *)
  Lemma cumb_at k e x : In e E -> inr e x -> depth_below l k x (height e x) = cumb k e.
  Proof.
    intros He I. destruct (archimed x) as [U1 U2]. set (n := up x - 1).
    assert (X : (IZR n <= x < IZR n + 1)%R) by (unfold n; rewrite minus_IZR; lra).
    assert (A : px (s_low e) <= n < px (s_high e)).
    { destruct I as [I1 I2]. split; [assert (IZR (px (s_low e)) < IZR (n + 1))%R by (rewrite plus_IZR; lra); apply lt_IZR in H; lia|apply lt_IZR; lra]. }
    rewrite (below_slab k e n x) by assumption. replace n with (px (s_low e) + Z.of_nat (Z.to_nat (n - px (s_low e)))) by lia. apply cumb_half; [exact He|lia].
  Qed.
  Lemma cum_at k e x : In e E -> inr e x -> depth_above l k x (height e x) = cum k e.
  Proof. intros He I. rewrite above_below, cumb_at by assumption. reflexivity. Qed.

  (* the edge just below (n, y), on the left *)
  Lemma cum_left k e n (y : R) : In e E -> px (s_low e) < n <= px (s_high e) -> (height e (IZR n) < y)%R ->
    (forall f, In f E -> px (s_low f) < n <= px (s_high f) -> lte e f -> (y <= height f (IZR n))%R) ->
    depth_below_left l k (IZR n) y = cum k e.
  Proof.
    intros He A Hy Hf0. assert (IE : inr e (IZR (n - 1) + / 2)) by (split; [apply izr_half_lt|apply izr_half_gt]; lia).
    rewrite <- (cum_at k e _ He IE). unfold depth_above, depth_below_left. apply tot_ext. intros f Hf. pose proof (inE f Hf) as Hf'. destruct f as [s w]. cbn [fst] in *. generalize (wt k (s, w)). intros c.
    rewrite (bool_eq (spans_l s (IZR n)) (spans_r s (IZR (n - 1) + / 2))) by (rewrite spans_lz, spans_before; reflexivity).
    destruct (spans_r s (IZR (n - 1) + / 2)) eqn:S; [|reflexivity]. cbn [andb]. apply spans_before in S.
    rewrite (bool_eq (rltb (height s (IZR n)) y) (rleb (height s (IZR (n - 1) + / 2)) (height e (IZR (n - 1) + / 2)))); [reflexivity|]. rewrite rltb_iff, rleb_iff.
    assert (IF : inr s (IZR (n - 1) + / 2)) by (split; [apply izr_half_lt|apply izr_half_gt]; lia).
    assert (I : inc e (IZR n)) by (split; apply IZR_le; lia). assert (J : inc s (IZR n)) by (split; apply IZR_le; lia).
    destruct (lte_total E nod ordE e s _ He Hf' IE IF) as [->|[H|H]].
    - lra.
    - pose proof (Hf0 s Hf' S H). pose proof (lte_at E nod ordE e s _ He Hf' H IE IF). lra.
    - pose proof (lte_le E nod ordE s e _ Hf' He H J I). pose proof (lte_at E nod ordE s e _ Hf' He H IF IE). lra.
  Qed.
  (* an edge that comes to the beginning of e from the left passes it not *)
  Lemma at_start e f : In e E -> In f E -> px (s_low f) <= px (s_low e) < px (s_high f) -> height f (IZR (px (s_low e))) = IZR (py (s_low e)) -> s_low f = s_low e.
  Proof.
    intros He Hf A H. destruct (Z.eq_dec (px (s_low f)) (px (s_low e))) as [Q|Q].
    - rewrite <- Q, height_low in H. apply eq_IZR in H. apply eq_pt_iff. unfold eq_pt. rewrite Q, H, !Z.eqb_refl. reflexivity.
    - assert (I : inr f (IZR (px (s_low e)))) by (split; apply IZR_lt; lia).
      assert (e = f) as ->; [|lia]. apply (touch E nod ordE f e _ Hf He I). rewrite H. apply on_low.
  Qed.
  Lemma spans_after s n : spans_r s (IZR n + / 2) = true <-> px (s_low s) <= n < px (s_high s).
  Proof. pose proof (spans_before s (n + 1)) as H. replace (n + 1 - 1) with n in H by lia. rewrite H. lia. Qed.
  Lemma cumb_first k e : In e E -> px (s_low e) < px (s_high e) -> (forall f, In f E -> s_low f = s_low e -> ~ lte f e) ->
    cumb k e = depth_below l k (IZR (px (s_low e))) (IZR (py (s_low e))).
  Proof.
    intros He L Hf0. set (n := px (s_low e)). assert (IE : inr e (IZR n + / 2)) by (split; [apply izr_half_lt|apply izr_half_gt]; unfold n; lia).
    unfold cumb, depth_below. fold n. apply tot_ext. intros f Hf. pose proof (inE f Hf) as Hf'. destruct f as [s w]. cbn [fst] in *. generalize (wt k (s, w)). intros c.
    rewrite (bool_eq (spans_r s (IZR n + / 2)) (spans_r s (IZR n))) by (rewrite spans_after, spans_rz; reflexivity).
    destruct (spans_r s (IZR n)) eqn:S; [|reflexivity]. cbn [andb]. apply spans_rz in S.
    rewrite (bool_eq (rltb (height s (IZR n + / 2)) (height e (IZR n + / 2))) (rltb (height s (IZR n)) (IZR (py (s_low e))))); [reflexivity|]. rewrite !rltb_iff.
    assert (IF : inr s (IZR n + / 2)) by (split; [apply izr_half_lt|apply izr_half_gt]; lia).
    assert (I : inc e (IZR n)) by (split; apply IZR_le; unfold n; lia). assert (J : inc s (IZR n)) by (split; apply IZR_le; lia).
    pose proof (height_low e) as HL. fold n in HL.
    destruct (lte_total E nod ordE e s _ He Hf' IE IF) as [->|[H|H]].
    - lra.
    - pose proof (lte_le E nod ordE e s _ He Hf' H I J). pose proof (lte_at E nod ordE e s _ He Hf' H IE IF). lra.
    - pose proof (lte_le E nod ordE s e _ Hf' He H J I) as P. pose proof (lte_at E nod ordE s e _ Hf' He H IF IE).
      destruct (Req_dec (height s (IZR n)) (IZR (py (s_low e)))) as [Q|Q]; [|lra]. exfalso. apply (Hf0 s Hf'); [|exact H]. apply at_start; assumption.
  Qed.
  Lemma cumb_next k e e' : In e E -> In e' E -> s_low e' = s_low e -> px (s_low e) < px (s_high e) -> lte e e' ->
    (forall f, In f E -> s_low f = s_low e -> lte e f -> lte f e' -> False) -> cumb k e' = cum k e.
  Proof.
    intros He He' Q L Hl Hf0. set (n := px (s_low e)). assert (IE : inr e (IZR n + / 2)) by (split; [apply izr_half_lt|apply izr_half_gt]; unfold n; lia).
    assert (L' : px (s_low e') < px (s_high e')) by (destruct Hl as [x [_ [H _]]]; apply (inr_nv _ _ H)).
    assert (IE' : inr e' (IZR n + / 2)) by (split; [apply izr_half_lt|apply izr_half_gt]; unfold n; rewrite <- Q; lia).
    pose proof (lte_at E nod ordE e e' _ He He' Hl IE IE') as LT.
    rewrite <- (cum_at k e _ He IE). unfold cumb. rewrite Q. fold n. unfold depth_above, depth_below. apply tot_ext. intros f Hf. pose proof (inE f Hf) as Hf'. destruct f as [s w]. cbn [fst] in *. generalize (wt k (s, w)). intros c.
    destruct (spans_r s (IZR n + / 2)) eqn:S; [|reflexivity]. cbn [andb]. apply spans_after in S.
    rewrite (bool_eq (rltb (height s (IZR n + / 2)) (height e' (IZR n + / 2))) (rleb (height s (IZR n + / 2)) (height e (IZR n + / 2)))); [reflexivity|]. rewrite rltb_iff, rleb_iff. split; [|lra]. intros H.
    destruct (Rle_dec (height s (IZR n + / 2)) (height e (IZR n + / 2))) as [K|K]; [exact K|]. exfalso.
    assert (IF : inr s (IZR n + / 2)) by (split; [apply izr_half_lt|apply izr_half_gt]; lia).
    assert (H1 : lte e s) by (exists (IZR n + / 2)%R; repeat split; try apply IE; try apply IF; lra).
    assert (H2 : lte s e') by (exists (IZR n + / 2)%R; repeat split; try apply IE'; try apply IF; lra).
    apply (Hf0 s Hf'); try assumption. apply at_start; try assumption.
    assert (I : inc e (IZR n)) by (split; apply IZR_le; unfold n; lia). assert (J : inc s (IZR n)) by (split; apply IZR_le; lia). assert (I' : inc e' (IZR n)) by (split; apply IZR_le; unfold n; rewrite <- Q; lia).
    pose proof (lte_le E nod ordE e s _ He Hf' H1 I J). pose proof (lte_le E nod ordE s e' _ Hf' He' H2 J I').
    pose proof (height_low e) as P1. pose proof (height_low e') as P2. rewrite Q in P2. fold n in P1, P2. change (px (s_low e)) with n. lra.
  Qed.

  (* vertical edges *)
  Lemma vert_own k e : In e E -> vertical_edge e = true -> vert k (px (s_low e)) (IZR (py (s_high e))) = own k e.
  Proof.
    intros He V. pose proof (ordE e He) as O. apply ordered_iff in O. assert (VV := V). apply vertical_edge_iff in VV. assert (L : (IZR (py (s_low e)) < IZR (py (s_high e)))%R) by (apply IZR_lt; lia).
    apply tot_ext. intros f Hf. pose proof (inE f Hf) as Hf'. destruct f as [s w]. cbn [fst] in *.
    rewrite (bool_eq (vcov (px (s_low e)) (IZR (py (s_high e))) s) (eq_seg s e)); [reflexivity|]. rewrite vcov_iff, eq_seg_iff. split.
    - intros [A [B C]]. set (y := ((IZR (py (s_high e)) + Rmax (IZR (py (s_low e))) (IZR (py (s_low s)))) / 2)%R).
      assert (Y : (IZR (py (s_low e)) < y < IZR (py (s_high e)) /\ IZR (py (s_low s)) < y)%R) by (unfold y, Rmax; destruct (Rle_dec (IZR (py (s_low e))) (IZR (py (s_low s)))); lra).
      apply (touch_v E nod ordE e s y He Hf' V (proj1 Y)). rewrite <- A. apply on_vertical; [apply vertical_edge_iff; congruence|lra].
    - intros ->. split; [reflexivity|]. split; [congruence|]. lra.
  Qed.
  Lemma vert_none k x h : (forall e, In e E -> px (s_low e) = x -> px (s_high e) = x -> (IZR (py (s_low e)) < h <= IZR (py (s_high e)))%R -> False) -> vert k x h = 0.
  Proof.
    intros H. apply tot_zero. intros f Hf. destruct (vcov x h (fst f)) eqn:V; [|reflexivity]. exfalso. apply vcov_iff in V as [A [B C]]. apply (H (fst f)); try assumption. apply inE, Hf.
  Qed.
  Lemma along_vertical_l k e y : In e E -> vertical_edge e = true -> (IZR (py (s_low e)) < y <= IZR (py (s_high e)))%R ->
    depth_below_left l k (IZR (px (s_low e))) y = depth_below_left l k (IZR (px (s_low e))) (IZR (py (s_high e))).
  Proof.
    intros He V Y. apply tot_ext. intros f Hf. pose proof (inE f Hf) as Hf'. destruct f as [s w]. cbn [fst] in *. destruct (spans_l s (IZR (px (s_low e)))) eqn:S; [|reflexivity]. cbn [andb]. apply spans_lz in S.
    rewrite (bool_eq (rltb (height s (IZR (px (s_low e)))) y) (rltb (height s (IZR (px (s_low e)))) (IZR (py (s_high e))))); [reflexivity|]. rewrite !rltb_iff. split; [lra|]. intros H.
    destruct (Rlt_dec (height s (IZR (px (s_low e)))) y) as [K|K]; [exact K|]. exfalso.
    assert (s = e); [|subst s; lia]. apply (touch_v E nod ordE e s (height s (IZR (px (s_low e)))) He Hf' V); [lra|]. apply on_height; [lia|]. split; apply IZR_le; lia.
  Qed.
  Lemma along_vertical_r k e y : In e E -> vertical_edge e = true -> (IZR (py (s_low e)) < y <= IZR (py (s_high e)))%R ->
    depth_below l k (IZR (px (s_low e))) y = depth_below l k (IZR (px (s_low e))) (IZR (py (s_high e))).
  Proof.
    intros He V Y. apply tot_ext. intros f Hf. pose proof (inE f Hf) as Hf'. destruct f as [s w]. cbn [fst] in *. destruct (spans_r s (IZR (px (s_low e)))) eqn:S; [|reflexivity]. cbn [andb]. apply spans_rz in S.
    rewrite (bool_eq (rltb (height s (IZR (px (s_low e)))) y) (rltb (height s (IZR (px (s_low e)))) (IZR (py (s_high e))))); [reflexivity|]. rewrite !rltb_iff. split; [lra|]. intros H.
    destruct (Rlt_dec (height s (IZR (px (s_low e)))) y) as [K|K]; [exact K|]. exfalso.
    assert (s = e); [|subst s; apply vertical_edge_iff in V; lia]. apply (touch_v E nod ordE e s (height s (IZR (px (s_low e)))) He Hf' V); [lra|]. apply on_height; [lia|]. split; apply IZR_le; lia.
  Qed.
End closed.
