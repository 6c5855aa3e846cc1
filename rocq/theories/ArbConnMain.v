(* connectivity_extraction: two nodes are on edges with a common end if and only if their
   regions touch. *)
From Verif Require Import Base Units Outcome Scan90Spec Poly90Spec Poly90Model Poly90Proofs GeoSpec IvlModel RectModel SegModel PolySpec PolyModel PolyEdge ScanBaseModel SnapModel SnapSpec SnapProofs ArbSpec ArbOrder ArbSums ArbModel ArbMaps ArbLess ArbLine ArbColumn ArbScan ArbBool ArbResult ArbSnap ArbSetModel ArbMergeSpec ArbMergeModel ArbConnModel ArbMergeProofs ArbConnScan ArbConnGeo.
From Coq Require Import Reals Lra Sorting.Sorted Sorting.Permutation Classical.

(* 1 where all properties of S cover the plane *)
Definition FS (S : list Z) (d : Z -> Z) : Z := if forallb (fun k => 0 <? d k) S then 1 else 0.
Lemma FS_iff S d : FS S d = 1 <-> forall k, In k S -> 0 < d k.
Proof.
  unfold FS. destruct (forallb _ S) eqn:Q.
  - split; [|reflexivity]. intros _ k K. rewrite forallb_forall in Q. specialize (Q k K). lia.
  - split; [lia|]. intros H. exfalso. apply not_true_iff_false in Q. apply Q, forallb_forall. intros k K. specialize (H k K). lia.
Qed.
Lemma FS_01 S d : FS S d = 0 \/ FS S d = 1.
Proof. unfold FS. destruct (forallb _ S); auto. Qed.
Lemma FS_pos S d d' : (forall k, 0 < d k <-> 0 < d' k) -> FS S d = FS S d'.
Proof.
  intros H. pose proof (FS_iff S d) as A. pose proof (FS_iff S d') as B. assert (E : FS S d = 1 <-> FS S d' = 1). { rewrite A, B. split; intros K k I; apply H, K, I. }
  destruct (FS_01 S d), (FS_01 S d'); lia.
Qed.
Lemma common_end s t x y : end_r s x y -> end_r t x y -> exists p, (s_low s = p \/ s_high s = p) /\ (s_low t = p \/ s_high t = p).
Proof.
  assert (Q : forall p q, at_r p x y -> at_r q x y -> p = q).
  { intros [a b] [c d] [A B] [C D]. cbn [px py] in *. rewrite A in C. rewrite B in D. apply eq_IZR in C, D. congruence. }
  intros [A|A] [B|B]; pose proof (Q _ _ A B) as E; [exists (s_low s)|exists (s_low s)|exists (s_high s)|exists (s_high s)]; rewrite E; auto.
Qed.
Section touch.
  Variable l : list vprop.
  Hypothesis nod : noded (map fst l).
  Hypothesis ord : forall e, In e l -> ordered (fst e).
  Hypothesis clo : closed l.
  Variable out : list osides.
  Hypothesis out_nd : NoDup (map fst out).
  Hypothesis out_in : forall e L R, In (e, (L, R)) out <-> In e (map fst l) /\ sides l e L R /\ L <> R.
  Let ordE : forall s, In s (map fst l) -> ordered s := ordE l ord.
  Section region.
    Variable S : list Z.
    Hypothesis SN : S <> [].
    Notation F := (FS S).
    Definition gS (o : osides) : list pedge := if delta l F (fst o) =? 0 then [] else [(fst o, if vertical_edge (fst o) then - delta l F (fst o) else delta l F (fst o))].
    Lemma F_ext d d' : (forall k, d k = d' k) -> F d = F d'.
    Proof. intros H. apply FS_pos. intros k. rewrite H. reflexivity. Qed.
    Lemma F_0 : F (fun _ => 0) = 0.
    Proof. destruct S as [|k S']; [congruence|]. reflexivity. Qed.
    Definition rS : list pedge := flat_map gS out.
    Lemma rS_one o : In o out -> gS o = if delta l F (fst o) =? 0 then [] else [(fst o, if vertical_edge (fst o) then - delta l F (fst o) else delta l F (fst o))].
    Proof. reflexivity. Qed.
    Lemma rS_not e : In e (map fst l) -> ~ In e (map fst out) -> delta l F e = 0.
    Proof. apply (silent l nod ord clo out out_in F). intros d d' H. apply FS_pos, H. Qed.
    Lemma rS_below x y : depth_below (as_set rS) 0 x y = F (fun k => depth_below l k x y).
    Proof. apply (result_below l nod ord clo F); try assumption; [apply F_ext|apply F_0|apply (mo_in l out out_in)|apply rS_one|apply rS_not]. Qed.
    Lemma rS_closed : closed (as_set rS).
    Proof. apply (result_closed l nod ord clo F); try assumption; [apply F_ext|apply F_0|apply (mo_in l out out_in)|apply rS_one|apply rS_not]. Qed.
    Lemma rS_in e : In e (as_set rS) -> exists L R, In (fst e, (L, R)) out /\ ((forall k, In k S -> In k L) \/ (forall k, In k S -> In k R)).
    Proof.
      intros H. unfold as_set in H. apply in_map_iff in H as [f [<- H]]. cbn [fst]. apply in_flat_map in H as [[e' [L R]] [H1 H2]]. unfold gS in H2. cbn [fst] in H2. destruct (delta l F e' =? 0) eqn:Q; [destruct H2|]. destruct H2 as [H2|[]]. subst f. cbn [fst]. exists L, R. split; [exact H1|].
      destruct (out_sides l nod ord clo out out_in e' L R H1) as [_ [[_ CL] [[_ CR] _]]]. apply Z.eqb_neq in Q. unfold delta in Q. destruct (FS_01 S (lside l e')) as [E|E].
      - right. destruct (FS_01 S (rside l e')) as [E'|E']; [lia|]. intros k K. apply CR. revert k K. apply FS_iff, E'.
      - left. intros k K. apply CL. revert k K. apply FS_iff, E.
    Qed.
    Lemma rS_ord e : In e (as_set rS) -> ordered (fst e).
    Proof. intros H. apply rS_in in H as [L [R [H _]]]. apply ordE, (proj1 (out_in _ _ _) H). Qed.
    Lemma rS_near x y : (forall e, In e (as_set rS) -> ~ on_r (fst e) x y) -> exists d, (0 < d)%R /\
      forall x1 y1 x2 y2, (Rabs (x1 - x) < d)%R -> (Rabs (y1 - y) < d)%R -> (Rabs (x2 - x) < d)%R -> (Rabs (y2 - y) < d)%R -> F (fun k => depth_below l k x1 y1) = F (fun k => depth_below l k x2 y2).
    Proof.
      intros H. destruct (list_gap (map fst (as_set rS)) x y) as [d [D G]].
      - intros s I. apply in_map_iff in I as [e [<- I]]. apply rS_ord, I.
      - intros s I. apply in_map_iff in I as [e [<- I]]. apply H, I.
      - exists d. split; [exact D|]. intros x1 y1 x2 y2 A B C E. rewrite <- !rS_below. apply (depth_box (as_set rS) rS_ord rS_closed 0 x y d); try assumption. intros e I. apply G, in_map, I.
    Qed.
    Lemma rS_some x y : F (fun k => depth_below l k x y) = 1 -> exists p, forall k, In k S -> seen out p k.
    Proof.
      intros H. rewrite <- rS_below in H. destruct (as_set rS) as [|e r] eqn:Q; [discriminate|]. destruct (rS_in e) as [L [R [H1 H2]]]; [rewrite Q; left; reflexivity|].
      exists (s_low (fst e)). intros k K. exists (fst e), L, R. split; [exact H1|]. split; [left; reflexivity|]. destruct H2 as [H2|H2]; [left|right]; apply H2, K.
    Qed.
  End region.
  Lemma closure_seen i j : touching (depth_below l i) (depth_below l j) -> exists p, seen out p i /\ seen out p j.
  Proof.
    assert (B : forall i j x y, closure (depth_below l i) x y -> closure (depth_below l j) x y -> (forall e, In e (as_set (rS [i])) -> ~ on_r (fst e) x y) -> exists p, seen out p i /\ seen out p j).
    { clear i j. intros i j x y CI CJ N. destruct (rS_near [i] ltac:(discriminate) x y N) as [d [D K]]. destruct (CI d D) as [x1 [y1 [A1 [A2 A3]]]]. destruct (CJ d D) as [x2 [y2 [B1 [B2 B3]]]].
      assert (E : FS [i] (fun k => depth_below l k x2 y2) = 1) by (rewrite <- (K x1 y1 x2 y2 A1 A2 B1 B2); apply FS_iff; intros k [<-|[]]; exact A3).
      destruct (rS_some [i; j] ltac:(discriminate) x2 y2) as [p P].
      - apply FS_iff. intros k [<-|[<-|[]]]; [|exact B3]. apply (proj1 (FS_iff _ _) E). left. reflexivity.
      - exists p. split; apply P; [left|right; left]; reflexivity. }
    intros [x [y [CI CJ]]]. destruct (classic (forall e, In e (as_set (rS [i])) -> ~ on_r (fst e) x y)) as [N|N]; [apply (B i j x y CI CJ N)|].
    destruct (classic (forall e, In e (as_set (rS [j])) -> ~ on_r (fst e) x y)) as [M|M]; [destruct (B j i x y CJ CI M) as [p [P1 P2]]; exists p; auto|].
    apply not_all_ex_not in N as [e N]. apply imply_to_and in N as [E1 E2]. apply NNPP in E2. apply not_all_ex_not in M as [f M]. apply imply_to_and in M as [F1 F2]. apply NNPP in F2.
    destruct (rS_in [i] e E1) as [L [R [E3 E4]]]. destruct (rS_in [j] f F1) as [L' [R' [F3 F4]]]. pose proof (proj1 (proj1 (out_in _ _ _) E3)) as E5. pose proof (proj1 (proj1 (out_in _ _ _) F3)) as F5.
    assert (SE : forall p, s_low (fst e) = p \/ s_high (fst e) = p -> seen out p i). { intros p P. exists (fst e), L, R. split; [exact E3|]. split; [exact P|]. destruct E4 as [E4|E4]; [left|right]; apply E4; left; reflexivity. }
    assert (SF : forall p, s_low (fst f) = p \/ s_high (fst f) = p -> seen out p j). { intros p P. exists (fst f), L', R'. split; [exact F3|]. split; [exact P|]. destruct F4 as [F4|F4]; [left|right]; apply F4; left; reflexivity. }
    destruct (nod (fst e) (fst f) x y E5 F5 E2 F2) as [[A A']|A].
    - destruct (common_end _ _ _ _ A A') as [p [P Q]]. exists p. split; [apply SE, P|apply SF, Q].
    - apply (same_ordered _ ordE _ _ E5 F5) in A. exists (s_low (fst e)). split; [apply SE; auto|apply SF; rewrite A; auto].
  Qed.
  (* ---------- back ---------- *)
  Local Open Scope R_scope.
  Lemma close_t eps a b : 0 < eps -> exists t, 0 < t < 1 /\ Rabs (t * a) < eps /\ Rabs (t * b) < eps.
  Proof.
    intros E. pose proof (Rabs_pos a) as A. pose proof (Rabs_pos b) as B. set (m := eps + Rabs a + Rabs b). assert (M : 0 < m) by (unfold m; lra). exists (eps / (2 * m)).
    assert (K : eps / (2 * m) * m = eps / 2) by (field; lra). assert (T : 0 < eps / (2 * m)) by (apply Rdiv_lt_0_compat; lra). rewrite !Rabs_mult, !(Rabs_right (eps / (2 * m))) by lra. unfold m in K at 2. repeat split; try exact T; nra.
  Qed.
  Lemma near_end e p eps : In e (map fst l) -> vertical_edge e = false -> s_low e = p \/ s_high e = p -> 0 < eps -> exists x, inr e x /\ Rabs (x - IZR (px p)) < eps /\ Rabs (height e x - IZR (py p)) < eps.
  Proof.
    intros He V P E. pose proof (nv_lt e (ordE e He) V) as N. pose proof (IZR_lt _ _ N) as NR. pose proof (height_low e) as HL. pose proof (height_high e N) as HH.
    destruct P as [<-|<-].
    - destruct (close_t eps (IZR (px (s_high e)) - IZR (px (s_low e))) (IZR (py (s_high e)) - IZR (py (s_low e))) E) as [t [T [A B]]]. exists (IZR (px (s_low e)) + t * (IZR (px (s_high e)) - IZR (px (s_low e)))). rewrite height_between, HL, HH. split; [unfold inr; nra|].
      split; [replace (IZR (px (s_low e)) + _ - _) with (t * (IZR (px (s_high e)) - IZR (px (s_low e)))) by ring; exact A|replace (IZR (py (s_low e)) + _ - _) with (t * (IZR (py (s_high e)) - IZR (py (s_low e)))) by ring; exact B].
    - destruct (close_t eps (IZR (px (s_low e)) - IZR (px (s_high e))) (IZR (py (s_low e)) - IZR (py (s_high e))) E) as [t [T [A B]]]. exists (IZR (px (s_high e)) + t * (IZR (px (s_low e)) - IZR (px (s_high e)))). rewrite height_between, HL, HH. split; [unfold inr; nra|].
      split; [replace (IZR (px (s_high e)) + _ - _) with (t * (IZR (px (s_low e)) - IZR (px (s_high e)))) by ring; exact A|replace (IZR (py (s_high e)) + _ - _) with (t * (IZR (py (s_low e)) - IZR (py (s_high e)))) by ring; exact B].
  Qed.
  Lemma near_end_v e p eps : In e (map fst l) -> vertical_edge e = true -> s_low e = p \/ s_high e = p -> 0 < eps -> exists y, IZR (py (s_low e)) < y < IZR (py (s_high e)) /\ IZR (px p) = IZR (px (s_low e)) /\ Rabs (y - IZR (py p)) < eps.
  Proof.
    intros He V P E. pose proof (ordE e He) as O. apply vertical_edge_iff in V. apply ordered_iff in O. assert (N : (py (s_low e) < py (s_high e))%Z) by lia. apply IZR_lt in N.
    destruct P as [<-|<-].
    - destruct (close_t eps (IZR (py (s_high e)) - IZR (py (s_low e))) 0 E) as [t [T [A _]]]. exists (IZR (py (s_low e)) + t * (IZR (py (s_high e)) - IZR (py (s_low e)))). split; [nra|]. split; [reflexivity|]. replace (IZR (py (s_low e)) + _ - _) with (t * (IZR (py (s_high e)) - IZR (py (s_low e)))) by ring. exact A.
    - destruct (close_t eps (IZR (py (s_low e)) - IZR (py (s_high e))) 0 E) as [t [T [A _]]]. exists (IZR (py (s_high e)) + t * (IZR (py (s_low e)) - IZR (py (s_high e)))). split; [nra|]. split; [rewrite V; reflexivity|]. replace (IZR (py (s_high e)) + _ - _) with (t * (IZR (py (s_low e)) - IZR (py (s_high e)))) by ring. exact A.
  Qed.
  Lemma seen_closure p i : seen out p i -> closure (depth_below l i) (IZR (px p)) (IZR (py p)).
  Proof.
    intros [e [L [R [H [P K]]]]] eps E. destruct (out_sides l nod ord clo out out_in e L R H) as [He [[_ CL] [[_ CR] _]]]. destruct (vertical_edge e) eqn:V.
    - destruct (near_end_v e p (eps) He V P E) as [y [Y [X Q]]]. assert (CL' := CL i). assert (CR' := CR i). unfold lside, rside in CL', CR'. rewrite V in CL', CR'. destruct K as [K|K].
      + apply CL' in K. rewrite <- (along_vertical_l l nod ord i e y He V) in K by lra.
        destruct (just_left l ord i (IZR (px (s_low e))) y) as [d [D J]].
        { intros f Hf S EQ. apply spans_l_iff in S as S'. assert (fst f = e); [|subst e; apply spans_l_nv in S; congruence]. apply (touch_v _ nod ordE e (fst f) y He (in_map fst _ _ Hf) V Y). rewrite <- EQ. apply on_height; [apply lt_IZR; lra|unfold inc; lra]. }
        set (dd := Rmin d eps). assert (D1 : 0 < dd) by (apply Rmin_glb_lt; assumption). assert (D2 : dd <= d) by apply Rmin_l. assert (D3 : dd <= eps) by apply Rmin_r.
        exists (IZR (px (s_low e)) - dd / 2), y. split; [rewrite X; apply Rabs_def1; lra|]. split; [exact Q|]. rewrite J by lra. exact K.
      + apply CR' in K. rewrite <- (along_vertical_r l nod ord i e y He V) in K by lra. exists (IZR (px (s_low e))), y. split; [rewrite X; apply Rabs_def1; lra|]. split; [exact Q|exact K].
    - destruct (near_end e p (eps / 2) He V P) as [x [X [A B]]]; [lra|]. assert (CL' := CL i). assert (CR' := CR i). unfold lside, rside in CL', CR'. rewrite V in CL', CR'. destruct K as [K|K].
      + apply CL' in K. rewrite <- (cum_at l nod ord clo i e x He X) in K. destruct (just_above l i x (height e x)) as [d [D J]]. 
        set (dd := Rmin d (eps / 2)). assert (D1 : 0 < dd) by (apply Rmin_glb_lt; lra). assert (D2 : dd <= d) by apply Rmin_l. assert (D3 : dd <= eps / 2) by apply Rmin_r.
        exists x, (height e x + dd). split; [lra|]. split; [apply Rabs_def2 in B; apply Rabs_def1; lra|]. rewrite J by lra. exact K.
      + apply CR' in K. rewrite <- (cumb_at l nod ord clo i e x He X) in K. exists x, (height e x). split; [lra|]. split; [lra|exact K].
  Qed.
  Theorem touch_iff i j : (exists p, seen out p i /\ seen out p j) <-> touching (depth_below l i) (depth_below l j).
  Proof.
    split; [|apply closure_seen]. intros [p [A B]]. exists (IZR (px p)), (IZR (py p)). split; apply seen_closure; assumption.
  Qed.
End touch.
