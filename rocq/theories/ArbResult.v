(* The result of a boolean operation on edges that meet at their ends only. *)
From Verif Require Import Base Units Outcome Scan90Spec Poly90Spec Poly90Model Poly90Proofs GeoSpec IvlModel RectModel SegModel PolyModel PolyEdge ScanBaseModel ScanBaseOab SnapModel SnapSpec SnapProofs SnapLoops ArbSpec ArbOrder ArbSums ArbModel ArbMaps ArbLess ArbLine ArbColumn ArbScan ArbBool.
From Coq Require Import Reals Lra Sorting.Sorted Sorting.Permutation.

Lemma kept_ext op d d' : (forall k, d k = d' k) -> kept op d = kept op d'.
Proof. intros H. unfold kept. rewrite !H. reflexivity. Qed.
Lemma kept_0 op : kept op (fun _ => 0) = 0.
Proof. destruct op; reflexivity. Qed.
Definition two (d : Z -> Z) : list Z := (if 0 <? d 0 then [0] else []) ++ (if 0 <? d 1 then [1] else []).
Lemma in_if (b : bool) (c k : Z) : In k (if b then [c] else []) <-> b = true /\ k = c.
Proof. destruct b; cbn [In]; intuition congruence. Qed.
Lemma two_cover d : (forall k, k <> 0 -> k <> 1 -> d k <= 0) -> cover_list d (two d).
Proof.
  intros S. unfold two. split.
  - destruct (0 <? d 0), (0 <? d 1); cbn [app]; repeat constructor.
  - intros k. rewrite in_app_iff, !in_if, !Z.ltb_lt. pose proof (S k) as SK. split; [intros [[A ->]|[A ->]]; exact A|]. intros H.
    destruct (Z.eq_dec k 0) as [->|K0]; [left; auto|]. destruct (Z.eq_dec k 1) as [->|K1]; [right; auto|]. lia.
Qed.
Lemma cover_two d L : (forall k, k <> 0 -> k <> 1 -> d k <= 0) -> cover_list d L -> L = two d.
Proof. intros S C. apply (cover_list_unique d); [exact C|]. apply two_cover, S. Qed.
Lemma ordered_pt e : ordered e -> pt_less (s_high e) (s_low e) = false.
Proof. intros O. apply ordered_iff in O. unfold pt_less. apply orb_false_iff. rewrite andb_false_iff, !Z.ltb_ge, Z.eqb_neq. lia. Qed.
Lemma bool_out_spec op e L R dL dR : ordered e -> (forall k, k <> 0 -> k <> 1 -> dL k <= 0) -> (forall k, k <> 0 -> k <> 1 -> dR k <= 0) ->
  cover_list dL L -> cover_list dR R -> L <> R ->
  bool_out op (e, (L, R)) = if kept op dL - kept op dR =? 0 then [] else [(e, if vertical_edge e then - (kept op dL - kept op dR) else kept op dL - kept op dR)].
Proof.
  intros O SL SR CL CR N. apply cover_two in CL; [|exact SL]. apply cover_two in CR; [|exact SR]. subst L R. unfold bool_out, insert_clean. cbn [fst snd]. rewrite (ordered_pt e O).
  change (sb_vertical e) with (vertical_edge e). unfold kept, two in *.
  destruct op, (0 <? dL 0), (0 <? dL 1), (0 <? dR 0), (0 <? dR 1), (vertical_edge e); cbn in *; try reflexivity; exfalso; apply N; reflexivity.
Qed.

Lemma tot_flat {A B : Type} (f : B -> Z) (g : A -> list B) l : tot f (flat_map g l) = tot (fun a => tot f (g a)) l.
Proof. induction l as [|a l IH]; [reflexivity|]. cbn [flat_map tot]. rewrite tot_app, IH. reflexivity. Qed.
Lemma tot_subset (g : seg -> Z) a b : NoDup a -> NoDup b -> incl a b -> (forall e, In e b -> ~ In e a -> g e = 0) -> tot g a = tot g b.
Proof.
  intros NA NB I Z0. rewrite (tot_ext g (fun e => if (if in_dec seg_dec e a then true else false) then g e else 0) b).
  - rewrite tot_filter. apply tot_permut. apply NoDup_Permutation; [exact NA|apply NoDup_filter, NB|]. intros e. rewrite filter_In. destruct (in_dec seg_dec e a) as [K|K]; split; try tauto.
    + intros _. split; [apply I, K|reflexivity].
    + intros [_ H]. discriminate.
  - intros e He. destruct (in_dec seg_dec e a) as [K|K]; [reflexivity|]. apply Z0; assumption.
Qed.

(* any function of the properties on a side that is 0 or 1, and 0 far away: the edges
   where it changes *)
Section result.
  Variable l : list vprop.
  Hypothesis nod : noded (map fst l).
  Hypothesis ord : forall e, In e l -> ordered (fst e).
  Hypothesis clo : closed l.
  Variable F : (Z -> Z) -> Z.
  Hypothesis F_ext : forall d d', (forall k, d k = d' k) -> F d = F d'.
  Hypothesis F_0 : F (fun _ => 0) = 0.
  Hypothesis F_01 : forall d, F d = 0 \/ F d = 1.
  Variable out : list osides.
  Hypothesis out_nd : NoDup (map fst out).
  Hypothesis in_out : forall e, In e (map fst out) -> In e (map fst l).
  Variable g : osides -> list pedge.
  Notation dl := (delta l F).
  Hypothesis out_one : forall o, In o out -> g o = if dl (fst o) =? 0 then [] else [(fst o, if vertical_edge (fst o) then - dl (fst o) else dl (fst o))].
  Hypothesis out_not : forall e, In e (map fst l) -> ~ In e (map fst out) -> dl e = 0.
  Notation r := (flat_map g out).

  (* sums over the result *)
  Lemma sum_result (P : seg -> bool) : tot (fun e => if P (fst e) then along 0 e else 0) (as_set r) = tot (fun e => if P e then dl e else 0) (edges l).
  Proof.
    unfold as_set. rewrite tot_map, tot_flat.
    rewrite (tot_ext _ (fun o : osides => if P (fst o) then dl (fst o) else 0)).
    - etransitivity; [symmetry; exact (tot_map fst (fun e => if P e then dl e else 0) out)|]. apply tot_subset; [exact out_nd|apply NoDup_nodup| |].
      + intros e H. apply edges_in, in_out, H.
      + intros e He N. apply edges_in in He. rewrite (out_not e He N). destruct (P e); reflexivity.
    - intros o Ho. rewrite (out_one o Ho). unfold along, wt. destruct (dl (fst o) =? 0) eqn:Q.
      + cbn [tot]. destruct (P (fst o)); lia.
      + cbn [tot fst snd Z.eqb]. destruct (P (fst o)), (vertical_edge (fst o)); lia.
  Qed.
  Lemma spans_r_nv s x : spans_r s x = true -> vertical_edge s = false.
  Proof. intros H. apply spans_r_iff in H. unfold vertical_edge. apply Z.eqb_neq. intros E. rewrite E in H. lra. Qed.
  Lemma spans_l_nv s x : spans_l s x = true -> vertical_edge s = false.
  Proof. intros H. apply spans_l_iff in H. unfold vertical_edge. apply Z.eqb_neq. intros E. rewrite E in H. lra. Qed.
  Lemma result_wt (P : seg -> bool) : (forall s, P s = true -> vertical_edge s = false) -> tot (fun e => if P (fst e) then wt 0 e else 0) (as_set r) = tot (fun e => if P e then dl e else 0) (edges l).
  Proof. intros H. rewrite <- sum_result. apply tot_ext. intros e _. destruct (P (fst e)) eqn:Q; [|reflexivity]. unfold along. rewrite (H _ Q). reflexivity. Qed.
  Theorem result_below x y : depth_below (as_set r) 0 x y = F (fun k => depth_below l k x y).
  Proof.
    unfold depth_below. rewrite (result_wt (fun s => spans_r s x && rltb (height s x) y)); [|intros s H; apply andb_true_iff in H as [H _]; apply (spans_r_nv s x H)].
    apply (sum_r l nod ord clo F F_ext F_0 x (fun z => rltb z y)). apply below_mono.
  Qed.
  Theorem result_above x y : depth_above (as_set r) 0 x y = F (fun k => depth_above l k x y).
  Proof.
    unfold depth_above. rewrite (result_wt (fun s => spans_r s x && rleb (height s x) y)); [|intros s H; apply andb_true_iff in H as [H _]; apply (spans_r_nv s x H)].
    apply (sum_r l nod ord clo F F_ext F_0 x (fun z => rleb z y)). apply above_mono.
  Qed.
  Theorem result_left x y : depth_below_left (as_set r) 0 x y = F (fun k => depth_below_left l k x y).
  Proof.
    unfold depth_below_left. rewrite (result_wt (fun s => spans_l s x && rltb (height s x) y)); [|intros s H; apply andb_true_iff in H as [H _]; apply (spans_l_nv s x H)].
    apply (sum_l l nod ord clo F F_ext F_0 x (fun z => rltb z y)). apply below_mono.
  Qed.
  Lemma result_closed : closed (as_set r).
  Proof.
    intros k v. destruct (Z.eq_dec k 0) as [->|K].
    - rewrite (sum_result (fun s => eq_pt (s_low s) v)), (sum_result (fun s => eq_pt (s_high s) v)). apply (delta_closed l nod ord clo F F_ext F_0).
    - rewrite !tot_zero; [reflexivity| |]; intros e He; unfold as_set in He; apply in_map_iff in He as [p [<- _]]; unfold along, wt; cbn [fst snd]; destruct (0 =? k) eqn:Q; try lia; destruct (vertical_edge (fst p)), (eq_pt _ v); reflexivity.
  Qed.
  Lemma result_fst : map fst r = filter (fun e => negb (dl e =? 0)) (map fst out).
  Proof.
    pose proof out_one as H. clear - H. induction out as [|o os IH]; [reflexivity|]. cbn [flat_map map filter]. etransitivity; [apply map_app|]. etransitivity; [apply f_equal2; [reflexivity|apply IH; intros q Q; apply H; right; exact Q]|]. rewrite (H o (or_introl eq_refl)). destruct (dl (fst o) =? 0); reflexivity.
  Qed.
  Lemma result_nodup : NoDup (map fst r).
  Proof. rewrite result_fst. apply NoDup_filter, out_nd. Qed.
  Lemma result_in e c : In (e, c) r -> In e (map fst l) /\ (c = 1 \/ c = -1).
  Proof.
    intros H. apply in_flat_map in H as [o [Ho H]]. rewrite (out_one o Ho) in H. destruct (dl (fst o) =? 0) eqn:Q; [destruct H|]. destruct H as [H|[]].
    assert (E1 : fst o = e) by congruence. split; [subst e; apply in_out, in_map, Ho|]. assert (E2 : (if vertical_edge (fst o) then - dl (fst o) else dl (fst o)) = c) by congruence.
    unfold delta in Q, E2. pose proof (F_01 (lside l (fst o))) as A. pose proof (F_01 (rside l (fst o))) as B. destruct (vertical_edge (fst o)); lia.
  Qed.
End result.

(* the boolean operations *)
Section bool_result.
  Variable l : list vprop.
  Hypothesis nod : noded (map fst l).
  Hypothesis ord : forall e, In e l -> ordered (fst e).
  Hypothesis clo : closed l.
  Hypothesis ids : forall e, In e l -> fst (snd e) = 0 \/ fst (snd e) = 1.
  Variable out : list osides.
  Hypothesis out_nd : NoDup (map fst out).
  Hypothesis out_in : forall e L R, In (e, (L, R)) out <-> In e (map fst l) /\ sides l e L R /\ L <> R.
  Variable op : bool_op.
  Let ordE : forall s, In s (map fst l) -> ordered s := ordE l ord.
  Notation dl := (delta l (kept op)).

  Lemma wt_none k e : In e l -> k <> 0 -> k <> 1 -> wt k e = 0.
  Proof. intros He A B. unfold wt. destruct (ids e He) as [-> | ->]; [destruct (0 =? k) eqn:Q|destruct (1 =? k) eqn:Q]; try reflexivity; lia. Qed.
  Lemma tot_none k (c : vprop -> bool) : k <> 0 -> k <> 1 -> tot (fun e => if c e then wt k e else 0) l = 0.
  Proof. intros A B. apply tot_zero. intros e He. rewrite (wt_none k e He A B). destruct (c e); reflexivity. Qed.
  Lemma lside_none e k : k <> 0 -> k <> 1 -> lside l e k <= 0.
  Proof. intros A B. unfold lside, cum, cumb, own, depth_below, depth_below_left. destruct (vertical_edge e); rewrite !(tot_none k _ A B); lia. Qed.
  Lemma rside_none e k : k <> 0 -> k <> 1 -> rside l e k <= 0.
  Proof. intros A B. unfold rside, cumb, depth_below. destruct (vertical_edge e); rewrite !(tot_none k _ A B); lia. Qed.

  Lemma out_one o : In o out -> bool_out op o = if dl (fst o) =? 0 then [] else [(fst o, if vertical_edge (fst o) then - dl (fst o) else dl (fst o))].
  Proof.
    destruct o as [e [L R]]. intros K. pose proof (proj1 (out_in e L R) K) as [He [S N]]. apply (sides_iff l nod ord clo) in S as [S1 S2]; [|exact He]. cbn [fst].
    apply (bool_out_spec op e L R (lside l e) (rside l e) (ordE e He)); try assumption; intros k; [apply lside_none|apply rside_none].
  Qed.
  Lemma out_not e : In e (map fst l) -> ~ In e (map fst out) -> dl e = 0.
  Proof.
    intros He N. unfold delta.
    pose proof (two_cover (lside l e) (lside_none e)) as C1. pose proof (two_cover (rside l e) (rside_none e)) as C2.
    destruct (list_eq_dec Z.eq_dec (two (lside l e)) (two (rside l e))) as [Q|Q].
    - unfold two, kept in *. destruct (0 <? lside l e 0), (0 <? lside l e 1), (0 <? rside l e 0), (0 <? rside l e 1); cbn [app] in Q; try discriminate; lia.
    - exfalso. apply N. apply in_map_iff. exists (e, (two (lside l e), two (rside l e))). split; [reflexivity|]. apply out_in. split; [exact He|]. split; [|exact Q]. apply (sides_iff l nod ord clo); [exact He|]. split; assumption.
  Qed.
  Lemma in_out e : In e (map fst out) -> In e (map fst l).
  Proof. intros H. apply in_map_iff in H as [[f [L R]] [H K]]. cbn [fst] in H. subst f. apply (proj1 (out_in e L R) K). Qed.

End bool_result.

Theorem bool_main (l : list vprop) (op : bool_op) : noded (map fst l) -> (forall e, In e l -> ordered (fst e) /\ fits (fst e) /\ INT_MIN < px (s_low (fst e))) -> closed l ->
  (forall e, In e l -> fst (snd e) = 0 \/ fst (snd e) = 1) ->
  exists data out, vd_sort l = Ok data /\ scan data = Ok out /\ let r := flat_map (bool_out op) out in
    NoDup (map fst r) /\ (forall e c, In (e, c) r -> In e (map fst l) /\ (c = 1 \/ c = -1)) /\ closed (as_set r) /\
    forall x y, depth_below (as_set r) 0 x y = kept op (fun k => depth_below l k x y) /\
                depth_above (as_set r) 0 x y = kept op (fun k => depth_above l k x y) /\
                depth_below_left (as_set r) 0 x y = kept op (fun k => depth_below_left l k x y).
Proof.
  intros nod H clo ids. destruct (scan_main l nod H clo) as [data [out [S1 [S2 [S3 S4]]]]]. exists data, out. split; [exact S1|]. split; [exact S2|]. cbv zeta.
  assert (ord : forall e, In e l -> ordered (fst e)) by (intros e K; apply H, K).
  assert (F1 : forall d, kept op d = 0 \/ kept op d = 1) by (intros d; unfold kept; destruct (keeps op _ _); auto).
  pose proof (in_out l out S4) as IO. pose proof (out_one l nod ord clo ids out S4 op) as O1. pose proof (out_not l nod ord clo ids out S4 op) as ON.
  pose proof (kept_ext op) as KE. pose proof (kept_0 op) as K0.
  split; [apply (result_nodup l (kept op)); assumption|]. split; [apply (result_in l (kept op)); assumption|]. split; [apply (result_closed l nod ord clo (kept op)); assumption|].
  intros x y. split; [apply (result_below l nod ord clo (kept op)); assumption|]. split; [apply (result_above l nod ord clo (kept op)); assumption|apply (result_left l nod ord clo (kept op)); assumption].
Qed.
