(* The sweep of property merge: what the result holds. *)
From Coq Require Import Permutation.
From Verif Require Import Base Scan90Spec BoolOpModel VertexLemmas ScanMap ScanProcess Set90Spec Set90Model
  PropMergeSpec PropMergeModel PropMergeMap PropMergeStep PropMergeVertex.

(* ---------- sums over the data ---------- *)
Fixpoint psum (f : pvertex -> bool) (D : list pvertex) (p : Z) : Z :=
  match D with
  | [] => 0
  | v :: D' => (if f v && (pv_p v =? p) then pv_c v else 0) + psum f D' p
  end.
Definition quad (x y : Z) (v : pvertex) : bool := (pv_x v <=? x) && (pv_y v <=? y).
Definition oncol (x : Z) (v : pvertex) : bool := pv_x v =? x.
Definition pcnt (D : list pvertex) (p x y : Z) : Z := psum (quad x y) D p.

Lemma psum_app f D E p : psum f (D ++ E) p = psum f D p + psum f E p.
Proof. induction D as [|v D IH]; cbn [app psum]; [reflexivity|]. rewrite IH. lia. Qed.
Lemma psum_ext f g D p : (forall v, In v D -> f v = g v) -> psum f D p = psum g D p.
Proof.
  induction D as [|v D IH]; intros H; cbn [psum]; [reflexivity|]. rewrite IH by (intros w Hw; apply H; right; exact Hw).
  rewrite (H v) by (left; reflexivity). reflexivity.
Qed.
Lemma psum_add f g h D p : (forall v, In v D -> b2z (f v) = b2z (g v) + b2z (h v)) -> psum f D p = psum g D p + psum h D p.
Proof.
  induction D as [|v D IH]; intros H; cbn [psum]; [reflexivity|]. rewrite IH by (intros w Hw; apply H; right; exact Hw).
  specialize (H v (or_introl eq_refl)). destruct (f v), (g v), (h v); cbn [b2z andb] in *; try lia; destruct (pv_p v =? p); lia.
Qed.
Lemma psum_none f D p : (forall v, In v D -> f v = false) -> psum f D p = 0.
Proof.
  induction D as [|v D IH]; intros H; cbn [psum]; [reflexivity|]. rewrite IH by (intros w Hw; apply H; right; exact Hw).
  rewrite (H v) by (left; reflexivity). reflexivity.
Qed.
Lemma psum_perm f D E p : Permutation D E -> psum f D p = psum f E p.
Proof. induction 1; cbn [psum]; lia. Qed.

(* the properties of a cell, as a list *)
Fixpoint cellmap (D : list pvertex) (x y : Z) : pmap :=
  match D with
  | [] => []
  | v :: D' => if quad x y v then mergeProperty (cellmap D' x y) (pv_p v) (pv_c v) else cellmap D' x y
  end.
Definition cellset (D : list pvertex) (x y : Z) : list Z := setProperty (cellmap D x y).
Lemma cellmap_sorted D x y : ksorted (cellmap D x y).
Proof. induction D as [|v D IH]; cbn [cellmap]; [constructor|]. destruct (quad x y v); [apply mergeProperty_sorted|]; exact IH. Qed.
Lemma cellmap_count D x y p : pcount (cellmap D x y) p = pcnt D p x y.
Proof.
  unfold pcnt. induction D as [|v D IH]; cbn [cellmap psum]; [reflexivity|].
  destruct (quad x y v); cbn [andb]; [rewrite mergeProperty_count, IH; destruct (pv_p v =? p)|rewrite IH]; lia.
Qed.
Lemma cellset_set D x y : prop_set (cellset D x y).
Proof. apply setProperty_set. apply cellmap_sorted. Qed.
Lemma cellset_in D x y p : In p (cellset D x y) <-> 0 < pcnt D p x y.
Proof. unfold cellset. rewrite setProperty_in by apply cellmap_sorted. rewrite cellmap_count. reflexivity. Qed.
Lemma cellset_of D x y m : ksorted m -> (forall p, pcount m p = pcnt D p x y) -> setProperty m = cellset D x y.
Proof. intros H E. apply setProperty_ext; [exact H|apply cellmap_sorted|]. intros p. rewrite cellmap_count. apply E. Qed.

(* ---------- the result map ---------- *)
Definition rescount (r : pm_result) (S : list Z) (x y : Z) : Z :=
  match res_find S r with None => 0 | Some s => cnt (ps_data s) x y end.

Lemma insert_edge_data s x lo hi c : ps_data (ps_insert_edge s x lo hi c) = ps_data s ++ [(x, (lo, c)); (x, (hi, c * -1))].
Proof.
  unfold ps_insert_edge, ps_insert_vertex. cbn [ps_orient]. destruct (ps_orient s); cbn [orient_eqb ps_data];
    rewrite <- app_assoc; reflexivity.
Qed.
Lemma insert_edge_cnt s x lo hi c a b :
  cnt (ps_data (ps_insert_edge s x lo hi c)) a b = cnt (ps_data s) a b + (if x <=? a then c * at_iv lo hi b else 0).
Proof.
  rewrite insert_edge_data, cnt_app. cbn [cnt vx vy vc fst snd]. unfold at_iv, b2z.
  destruct (x <=? a), (lo <=? b), (hi <=? b); cbn [andb]; lia.
Qed.
Lemma res_edge_count S x lo hi c r S' a b :
  rescount (res_edge S x lo hi c r) S' a b =
  rescount r S' a b + (if (x <=? a) then eqS S S' * c * at_iv lo hi b else 0).
Proof.
  unfold rescount, eqS. induction r as [|[T s] r IH]; cbn [res_edge res_find].
  - destruct (set_eqb S S'); cbn [b2z]; [rewrite insert_edge_cnt; cbn [ps_new ps_data cnt]|]; destruct (x <=? a); lia.
  - destruct (set_eqb T S) eqn:E; cbn [res_find].
    + apply set_eqb_spec in E. subst T. destruct (set_eqb S S'); cbn [b2z]; [rewrite insert_edge_cnt|]; destruct (x <=? a); lia.
    + destruct (set_eqb T S') eqn:E'; [|exact IH].
      apply set_eqb_spec in E'. subst T. assert (N : set_eqb S S' = false).
      { destruct (set_eqb S S') eqn:E'; [|reflexivity]. apply set_eqb_spec in E'. subst S'. rewrite set_eqb_refl in E. discriminate E. }
      rewrite N. cbn [b2z]. destruct (x <=? a); lia.
Qed.
Lemma eqS_nil S : S <> [] -> eqS [] S = 0.
Proof. destruct S; [intros H; contradiction H; reflexivity|reflexivity]. Qed.
Lemma write_edge_count x e r S a b : S <> [] ->
  rescount (write_edge x r e) S a b = rescount r S a b + (if x <=? a then econ1 e S b else 0).
Proof.
  intros HS. unfold write_edge, econ1.
  destruct (pe_left e) as [|l0 l] eqn:El, (pe_right e) as [|r0 rr] eqn:Er; rewrite ?res_edge_count, ?(eqS_nil S HS);
    destruct (x <=? a); ring.
Qed.
Lemma write_count x out : forall r S a b, S <> [] ->
  rescount (fold_left (write_edge x) out r) S a b = rescount r S a b + (if x <=? a then econ out S b else 0).
Proof.
  induction out as [|e out IH]; intros r S a b HS; cbn [fold_left econ]; [destruct (x <=? a); lia|].
  rewrite IH, write_edge_count by exact HS. destruct (x <=? a); lia.
Qed.
Lemma writeOutput_count x out r S a b : S <> [] ->
  rescount (writeOutput x r out) S a b = rescount r S a b + (if x <=? a then econ out S b else 0).
Proof. intros HS. unfold writeOutput. rewrite write_count by exact HS. rewrite econ_rev. reflexivity. Qed.

Section Sweep.
Variable P : Z -> Prop.
Variable D : list pvertex.
Hypothesis HPD : Forall (fun v => P (pv_x v) /\ P (pv_y v)) D.
Hypothesis Hclosed : forall p x, psum (oncol x) D p = 0.

(* a stored set *)
Definition entry_ok (e : list Z * pset) : Prop :=
  fst e <> [] /\ (exists x y, cellset D x y = fst e) /\
  ps_orient (snd e) = Vertical /\ ps_dirty (snd e) = true /\ ps_unsorted (snd e) = true /\
  Forall (fun v => P (vx v) /\ P (vy v)) (ps_data (snd e)).
Definition res_ok (r : pm_result) : Prop := Forall entry_ok r /\ NoDup (map fst r).

Lemma insert_edge_fields s x lo hi c : ps_orient (ps_insert_edge s x lo hi c) = ps_orient s /\
  ps_dirty (ps_insert_edge s x lo hi c) = true /\ ps_unsorted (ps_insert_edge s x lo hi c) = true.
Proof. conj; reflexivity. Qed.
Lemma insert_edge_coords s x lo hi c : Forall (fun v => P (vx v) /\ P (vy v)) (ps_data s) -> P x -> P lo -> P hi ->
  Forall (fun v => P (vx v) /\ P (vy v)) (ps_data (ps_insert_edge s x lo hi c)).
Proof.
  intros H Hx Hl Hh. rewrite insert_edge_data. apply Forall_app. split; [exact H|].
  constructor; [split; assumption|]. constructor; [split; assumption|constructor].
Qed.
Lemma res_edge_keys S x lo hi c r T : In T (map fst (res_edge S x lo hi c r)) <-> In T (map fst r) \/ T = S.
Proof.
  induction r as [|[S' s] r IH]; cbn [res_edge map fst In]; [intuition congruence|].
  destruct (set_eqb S' S) eqn:E; cbn [map fst In].
  - apply set_eqb_spec in E. subst S'. intuition congruence.
  - rewrite IH. tauto.
Qed.
Lemma res_edge_ok S x lo hi c r : res_ok r -> S <> [] -> (exists x y, cellset D x y = S) -> P x -> P lo -> P hi ->
  res_ok (res_edge S x lo hi c r).
Proof.
  intros [H1 H2] HS HW Hx Hl Hh. induction r as [|[S' s] r IH]; cbn [res_edge].
  - split; [|constructor; [intros []|constructor]]. constructor; [|constructor]. unfold entry_ok. cbn [fst snd].
    conj; try assumption; try reflexivity. apply insert_edge_coords; try assumption. constructor.
  - inversion H1 as [|e l E1 E2]; subst. cbn [map fst] in H2. inversion H2 as [|e l N1 N2]; subst.
    destruct (set_eqb S' S) eqn:E.
    + split; [|cbn [map fst]; constructor; assumption]. constructor; [|exact E2].
      destruct E1 as [A1 [A2 [A3 [A4 [A5 A6]]]]]. unfold entry_ok. cbn [fst snd] in *.
      destruct (insert_edge_fields s x lo hi c) as [F1 [F2 F3]]. rewrite F1. conj; try assumption.
      apply insert_edge_coords; assumption.
    + destruct (IH E2 N2) as [I1 I2]. split; [constructor; assumption|]. cbn [map fst]. constructor; [|exact I2].
      intros Hi. apply res_edge_keys in Hi. destruct Hi as [Hi|Hi]; [contradiction|]. subst S'. rewrite set_eqb_refl in E. discriminate E.
Qed.
Definition edge_ok (e : pedge) : Prop :=
  P (pe_lo e) /\ P (pe_hi e) /\ (exists x y, cellset D x y = pe_left e) /\ (exists x y, cellset D x y = pe_right e).
Lemma write_edge_ok x r e : P x -> res_ok r -> edge_ok e -> res_ok (write_edge x r e).
Proof.
  intros Hx Hr [H1 [H2 [H3 H4]]]. unfold write_edge.
  assert (Hr1 : res_ok match pe_left e with [] => r | _ => res_edge (pe_left e) x (pe_lo e) (pe_hi e) (-1) r end).
  { destruct (pe_left e) as [|l0 l] eqn:E; [exact Hr|]. apply res_edge_ok; try assumption. discriminate. }
  destruct (pe_right e) as [|r0 rr] eqn:E; [exact Hr1|]. apply res_edge_ok; try assumption. discriminate.
Qed.
Lemma writeOutput_ok x r out : P x -> res_ok r -> Forall edge_ok out -> res_ok (writeOutput x r out).
Proof.
  intros Hx Hr Ho. unfold writeOutput. apply Forall_rev in Ho. revert r Hr.
  induction Ho as [|e l H1 H2 IH]; intros r Hr; cbn [fold_left]; [exact Hr|]. apply IH. apply write_edge_ok; assumption.
Qed.

(* ---------- the invariant of the loop ---------- *)
Definition beforeX (cx t : Z) (v : pvertex) : bool := (pv_x v <? cx) && (pv_y v <=? t).
Definition onX (cx t : Z) (v : pvertex) : bool := (pv_x v =? cx) && (pv_y v <=? t).
Definition belowY (cx cy : Z) (v : pvertex) : bool := (pv_x v =? cx) && (pv_y v <? cy).
Definition atXY (cx cy : Z) (v : pvertex) : bool := (pv_x v =? cx) && (pv_y v =? cy).

Record inv (D1 : list pvertex) (data : list pvertex) (cx cy q : Z) (m0 : smap pmap) (cur : pmap) (s : ms_state) (r : pm_result) : Prop := {
  i_split : D = D1 ++ data;
  i_done : Forall (fun v => pv_x v < cx \/ (pv_x v = cx /\ pv_y v <= cy)) D1;
  i_todo : pv_sorted data /\ Forall (fun v => cx < pv_x v \/ (pv_x v = cx /\ cy <= pv_y v)) data;
  i_P : P cx /\ P cy;
  i_cur : ksorted cur /\ forall p, pcount cur p = psum (atXY cx cy) D1 p;
  i_ok : ms_ok P s;
  i_below : forall p, pcount (ms_below s) p = psum (belowY cx cy) D1 p;
  i_q : q < cy /\ (ms_below s <> [] -> ms_prevY s = q) /\ Forall (fun v => pv_x v = cx -> ~ (q < pv_y v < cy)) D1;
  i_m : forall t p, pcount (sv (ms_scan s) t) p = psum (beforeX cx t) D1 p + if t <? q then psum (onX cx t) D1 p else 0;
  i_m0 : good P m0 /\ forall t p, pcount (sv m0 t) p = psum (beforeX cx t) D1 p;
  i_econ : forall S t, econ (ms_out s) S t = eqS (setProperty (sv (ms_scan s) t)) S - eqS (setProperty (sv m0 t)) S;
  i_edges : edges_ok P (fun lo l rr => P lo /\ lo < q /\ l = setProperty (sv m0 lo) /\ rr = setProperty (sv (ms_scan s) lo)) (ms_out s);
  i_res : forall S x t, S <> [] -> rescount r S x t = if x <? cx then eqS (cellset D x t) S else eqS (setProperty (sv m0 t)) S;
  i_rok : res_ok r
}.

Lemma good_sv m t : good P m -> ksorted (sv m t).
Proof. intros [_ [H _]]. apply (vals_sv P); [constructor|exact H]. Qed.

Ltac cases_b2z := unfold beforeX, onX, belowY, atXY, quad, oncol, b2z;
  repeat match goal with |- context [?a <? ?b] => destruct (Z.ltb_spec a b)
                    | |- context [?a <=? ?b] => destruct (Z.leb_spec a b)
                    | |- context [?a =? ?b] => destruct (Z.eqb_spec a b) end; cbn [andb]; try lia.

(* after processing the current vertex *)
Lemma process_inv D1 data cx cy q m0 cur s r : inv D1 data cx cy q m0 cur s r ->
  exists s', processVertex cy cur s = Some s' /\ ms_ok P s' /\ ms_prevY s' = cy /\
    (forall p, pcount (ms_below s') p = psum (onX cx cy) D1 p) /\
    (forall t p, pcount (sv (ms_scan s') t) p = psum (beforeX cx t) D1 p + if t <? cy then psum (onX cx t) D1 p else 0) /\
    (forall S t, econ (ms_out s') S t = eqS (setProperty (sv (ms_scan s') t)) S - eqS (setProperty (sv m0 t)) S) /\
    edges_ok P (fun lo l rr => P lo /\ lo < cy /\ l = setProperty (sv m0 lo) /\ rr = setProperty (sv (ms_scan s') lo)) (ms_out s').
Proof.
  intros H. pose proof (i_q _ _ _ _ _ _ _ _ _ H) as [Q1 [Q2 Q3]]. rewrite Forall_forall in Q3.
  pose proof (i_done _ _ _ _ _ _ _ _ _ H) as Hd. rewrite Forall_forall in Hd.
  destruct (processVertex_spec P cy cur s) as [s' [E Hs']].
  - apply (i_ok _ _ _ _ _ _ _ _ _ H).
  - apply (i_cur _ _ _ _ _ _ _ _ _ H).
  - apply (i_P _ _ _ _ _ _ _ _ _ H).
  - intros Hb. rewrite (Q2 Hb). exact Q1.
  - destruct Hs' as [Ok' [Ep [Eb Hst]]]. pose proof (good_sv m0) as GS0. pose proof (i_m0 _ _ _ _ _ _ _ _ _ H) as [G0 M0].
    assert (Hm' : forall t p, pcount (sv (ms_scan s') t) p = psum (beforeX cx t) D1 p + if t <? cy then psum (onX cx t) D1 p else 0).
    { intros t p. pose proof (i_m _ _ _ _ _ _ _ _ _ H t p) as Hm. pose proof (i_below _ _ _ _ _ _ _ _ _ H p) as Hbl.
      assert (Heq : q <= t < cy -> psum (onX cx t) D1 p = psum (belowY cx cy) D1 p).
      { intros Ht. apply psum_ext. intros v Hv. specialize (Q3 v Hv). cases_b2z. }
      destruct Hst as [[B1 [B2 B3]]|[B1 [B2 B3]]].
      - rewrite B3, Hm. rewrite B1 in Hbl. cbn [pcount] in Hbl.
        destruct (Z.ltb_spec t q), (Z.ltb_spec t cy); lia.
      - rewrite B2, (Q2 B1). destruct (Z.leb_spec q t), (Z.ltb_spec t cy); cbn [andb]; rewrite ?mergeCount_count, Hm, ?Hbl;
          destruct (Z.ltb_spec t q); try lia. }
    exists s'. conj.
    + exact E.
    + exact Ok'.
    + exact Ep.
    + intros p. rewrite Eb, (i_below _ _ _ _ _ _ _ _ _ H p), (proj2 (i_cur _ _ _ _ _ _ _ _ _ H) p). symmetry. apply psum_add.
      intros v Hv. cases_b2z.
    + exact Hm'.
    + intros S t. destruct Hst as [[B1 [B2 B3]]|[B1 [B2 [B3 _]]]].
      * rewrite B2, B3. apply (i_econ _ _ _ _ _ _ _ _ _ H).
      * rewrite B3, B2, (i_econ _ _ _ _ _ _ _ _ _ H). destruct (_ && _); lia.
    + pose proof (i_edges _ _ _ _ _ _ _ _ _ H) as He. destruct Hst as [[B1 [B2 B3]]|[B1 [B2 [_ B3]]]].
      * rewrite B2. eapply Forall_impl; [|exact He]. cbn beta. intros e [A1 [A2 [A3 [A4 A5]]]]. rewrite B3. conj; try assumption. lia.
      * rewrite (Q2 B1) in B2, B3. apply B3.
        -- eapply Forall_impl; [|exact He]. cbn beta. intros e [A1 [A2 [A3 [A4 A5]]]]. conj; try assumption; [lia|].
           rewrite B2. destruct (Z.leb_spec q (pe_lo e)); [lia|]. cbn [andb]. exact A5.
        -- intros k Hk Pk. conj; [exact Pk|lia| |].
           ++ apply setProperty_ext; [apply good_sv; apply (i_ok _ _ _ _ _ _ _ _ _ H)|apply good_sv; exact G0|].
              intros p. rewrite M0, (i_m _ _ _ _ _ _ _ _ _ H). destruct (Z.ltb_spec k q); lia.
           ++ rewrite B2. destruct (Z.leb_spec q k), (Z.ltb_spec k cy); try lia. reflexivity.
Qed.

(* the end of a column: every remaining vertex is to the right *)
Lemma column_end D1 data cx cy q m0 cur s r : inv D1 data cx cy q m0 cur s r ->
  Forall (fun v => cx < pv_x v) data ->
  exists s', processVertex cy cur s = Some s' /\ ms_ok P s' /\
    (forall t p, pcount (sv (ms_scan s') t) p = psum (quad cx t) D1 p) /\
    (forall S x t, S <> [] -> rescount (writeOutput cx r (ms_out s')) S x t =
       if x <? cx then eqS (cellset D x t) S else eqS (setProperty (sv (ms_scan s') t)) S) /\
    res_ok (writeOutput cx r (ms_out s')).
Proof.
  intros H Hr. destruct (process_inv _ _ _ _ _ _ _ _ _ H) as [s' [E [Ok' [Ep [Eb [Em [Ee Hed]]]]]]].
  pose proof (i_done _ _ _ _ _ _ _ _ _ H) as Hd. rewrite Forall_forall in Hd. rewrite Forall_forall in Hr.
  pose proof (i_m0 _ _ _ _ _ _ _ _ _ H) as [G0 M0].
  assert (Hm' : forall t p, pcount (sv (ms_scan s') t) p = psum (quad cx t) D1 p).
  { intros t p. rewrite Em. assert (Hs : psum (quad cx t) D1 p = psum (beforeX cx t) D1 p + psum (onX cx t) D1 p).
    { apply psum_add. intros v Hv. cases_b2z. }
    rewrite Hs. destruct (Z.ltb_spec t cy); [reflexivity|].
    assert (Hz : psum (onX cx t) D1 p = psum (oncol cx) D p).
    { rewrite (i_split _ _ _ _ _ _ _ _ _ H), psum_app. rewrite (psum_none (oncol cx) data).
      - rewrite Z.add_0_r. apply psum_ext. intros v Hv. specialize (Hd v Hv). cases_b2z.
      - intros v Hv. specialize (Hr v Hv). cases_b2z. }
    rewrite Hz, Hclosed. reflexivity. }
  exists s'. conj.
  - exact E.
  - exact Ok'.
  - exact Hm'.
  - intros S x t HS. rewrite writeOutput_count by exact HS. rewrite (i_res _ _ _ _ _ _ _ _ _ H) by exact HS. rewrite Ee.
    destruct (Z.ltb_spec x cx), (Z.leb_spec cx x); lia.
  - apply writeOutput_ok; [apply (i_P _ _ _ _ _ _ _ _ _ H)|apply (i_rok _ _ _ _ _ _ _ _ _ H)|].
    eapply Forall_impl; [|exact Hed]. cbn beta. intros e [A1 [A2 [A3 [A4 A5]]]].
    unfold edge_ok. conj; [exact A2|exact A1| |].
    + exists (cx - 1), (pe_lo e). rewrite A4. symmetry. apply cellset_of; [apply good_sv; exact G0|].
      intros p. rewrite M0. unfold pcnt. rewrite (i_split _ _ _ _ _ _ _ _ _ H), psum_app, (psum_none _ data).
      * rewrite Z.add_0_r. apply psum_ext. intros v Hv. cases_b2z.
      * intros v Hv. specialize (Hr v Hv). cases_b2z.
    + exists cx, (pe_lo e). rewrite A5. symmetry. apply cellset_of; [apply good_sv; apply Ok'|].
      intros p. rewrite Hm'. unfold pcnt. rewrite (i_split _ _ _ _ _ _ _ _ _ H), psum_app, (psum_none _ data); [lia|].
      intros v Hv. specialize (Hr v Hv). cases_b2z.
Qed.

Lemma merge_loop_spec data : forall D1 cx cy q m0 cur s r, inv D1 data cx cy q m0 cur s r ->
  exists r', merge_loop cx cy cur s r data = Some r' /\ res_ok r' /\
    forall S x t, S <> [] -> rescount r' S x t = eqS (cellset D x t) S.
Proof.
  induction data as [|v data IH]; intros D1 cx cy q m0 cur s r H; cbn [merge_loop].
  - destruct (column_end _ _ _ _ _ _ _ _ _ H) as [s' [E [Ok' [Em [Er Rok]]]]]; [constructor|].
    rewrite E. cbn [bind]. eexists. split; [reflexivity|]. split; [exact Rok|].
    intros S x t HS. rewrite Er by exact HS. destruct (Z.ltb_spec x cx); [reflexivity|].
    f_equal. apply cellset_of; [apply good_sv; apply Ok'|]. intros p. rewrite Em.
    pose proof (i_split _ _ _ _ _ _ _ _ _ H) as Es. rewrite app_nil_r in Es. rewrite Es. unfold pcnt.
    pose proof (i_done _ _ _ _ _ _ _ _ _ H) as Hd. rewrite Forall_forall in Hd.
    apply psum_ext. intros v Hv. specialize (Hd v Hv). cases_b2z.
  - pose proof (i_todo _ _ _ _ _ _ _ _ _ H) as [T1 T2]. unfold pv_sorted in T1. inversion T1 as [|v' l T3 T4]; subst v' l. inversion T2 as [|v' l T5 T6]; subst v' l.
    pose proof (i_split _ _ _ _ _ _ _ _ _ H) as Es.
    assert (Es' : D = (D1 ++ [v]) ++ data) by (rewrite Es, <- app_assoc; reflexivity).
    assert (Pv : P (pv_x v) /\ P (pv_y v)).
    { rewrite Forall_forall in HPD. apply HPD. rewrite Es. apply in_or_app. right. left. reflexivity. }
    pose proof (i_done _ _ _ _ _ _ _ _ _ H) as Hd. pose proof Hd as Hd'. rewrite Forall_forall in Hd.
    assert (Hcur0 : ksorted (mergeProperty [] (pv_p v) (pv_c v)) /\
              forall p, pcount (mergeProperty [] (pv_p v) (pv_c v)) p = if pv_p v =? p then pv_c v else 0).
    { split; [apply mergeProperty_sorted; constructor|]. intros p. rewrite mergeProperty_count. reflexivity. }
    destruct (Z.eqb_spec (pv_x v) cx) as [Ex|Ex]; cbn [andb negb].
    + destruct (Z.eqb_spec (pv_y v) cy) as [Ey|Ey]; cbn [negb].
      * (* the same position *)
        apply (IH (D1 ++ [v]) cx cy q m0). constructor; try (apply H).
        -- exact Es'.
        -- apply Forall_app. split; [exact Hd'|]. constructor; [right; lia|constructor].
        -- split; [exact T3|exact T6].
        -- pose proof (i_cur _ _ _ _ _ _ _ _ _ H) as [C1 C2]. split; [apply mergeProperty_sorted; exact C1|].
           intros p. rewrite mergeProperty_count, C2, psum_app. cbn [psum]. unfold atXY at 3. rewrite Ex, Ey, !Z.eqb_refl. cbn [andb]. lia.
        -- intros p. rewrite (i_below _ _ _ _ _ _ _ _ _ H), psum_app. cbn [psum]. unfold belowY at 3. rewrite Ey, Z.ltb_irrefl, andb_false_r. cbn [andb]. lia.
        -- pose proof (i_q _ _ _ _ _ _ _ _ _ H) as [Q1 [Q2 Q3]]. conj; [exact Q1|exact Q2|]. apply Forall_app. split; [exact Q3|]. constructor; [|constructor]. lia.
        -- intros t p. rewrite (i_m _ _ _ _ _ _ _ _ _ H), !psum_app. pose proof (i_q _ _ _ _ _ _ _ _ _ H) as [Q1 _].
           rewrite (psum_none (beforeX cx t) [v]) by (intros w [<-|[]]; cases_b2z).
           destruct (Z.ltb_spec t q); [|lia]. rewrite (psum_none (onX cx t) [v]) by (intros w [<-|[]]; cases_b2z). lia.
        -- pose proof (i_m0 _ _ _ _ _ _ _ _ _ H) as [M1 M2]. split; [exact M1|]. intros t p. rewrite M2, psum_app.
           rewrite (psum_none (beforeX cx t) [v]) by (intros w [<-|[]]; cases_b2z). lia.
      * (* further up in the column *)
        destruct (process_inv _ _ _ _ _ _ _ _ _ H) as [s' [E [Ok' [Ep [Eb [Em [Ee Hed]]]]]]].
        rewrite E. cbn [bind]. apply (IH (D1 ++ [v]) (pv_x v) (pv_y v) cy m0).
        assert (Hy : cy < pv_y v) by lia. clear Ey. rewrite Ex. constructor; try assumption.
        -- apply Forall_app. split; [|constructor; [right; lia|constructor]]. eapply Forall_impl; [|exact Hd']. cbn beta. intros w Hw. lia.
        -- split; [exact T3|]. apply Forall_forall. intros w Hw. rewrite Forall_forall in T4. specialize (T4 w Hw). unfold pv_le in T4. rewrite Ex in T4. clear -T4. lia.
        -- rewrite <- Ex. exact Pv.
        -- split; [apply Hcur0|]. intros p. rewrite (proj2 Hcur0), psum_app.
           rewrite (psum_none _ D1); [|intros w Hw; specialize (Hd w Hw); cases_b2z].
           cbn [psum]. unfold atXY. rewrite Ex, !Z.eqb_refl. cbn [andb]. lia.
        -- intros p. rewrite Eb, psum_app. cbn [psum]. unfold belowY at 2. rewrite Z.ltb_irrefl, andb_false_r. cbn [andb].
           rewrite !Z.add_0_r. apply psum_ext. intros w Hw. specialize (Hd w Hw). cases_b2z.
        -- conj; [exact Hy|intros _; exact Ep|]. apply Forall_app. split; [|constructor; [lia|constructor]].
           eapply Forall_impl; [|exact Hd']. cbn beta. intros w Hw. lia.
        -- intros t p. rewrite Em, !psum_app.
           rewrite (psum_none (beforeX cx t) [v]) by (intros w [<-|[]]; cases_b2z).
           destruct (Z.ltb_spec t cy); [|lia]. rewrite (psum_none (onX cx t) [v]) by (intros w [<-|[]]; cases_b2z). lia.
        -- pose proof (i_m0 _ _ _ _ _ _ _ _ _ H) as [M1 M2]. split; [exact M1|]. intros t p. rewrite M2, psum_app.
           rewrite (psum_none (beforeX cx t) [v]) by (intros w [<-|[]]; cases_b2z). lia.
        -- apply (i_res _ _ _ _ _ _ _ _ _ H).
        -- apply (i_rok _ _ _ _ _ _ _ _ _ H).
    + (* a new column *)
      assert (Hx : cx < pv_x v) by lia.
      assert (Hright : Forall (fun w => pv_x v <= pv_x w) (v :: data)).
      { constructor; [lia|]. eapply Forall_impl; [|exact T4]. unfold pv_le. intros w Hw. lia. }
      destruct (column_end _ _ _ _ _ _ _ _ _ H) as [s' [E [Ok' [Em [Er Rok]]]]].
      { eapply Forall_impl; [|exact Hright]. cbn beta. intros w Hw. lia. }
      rewrite E. cbn [bind].
      apply (IH (D1 ++ [v]) (pv_x v) (pv_y v) (pv_y v - 1) (ms_scan s')).
      assert (Mq : forall t p, psum (beforeX (pv_x v) t) (D1 ++ [v]) p = psum (quad cx t) D1 p).
      { intros t p. rewrite psum_app. rewrite (psum_none (beforeX (pv_x v) t) [v]) by (intros w [<-|[]]; cases_b2z).
        rewrite Z.add_0_r. apply psum_ext. intros w Hw. specialize (Hd w Hw). cases_b2z. }
      destruct Ok' as [O1 [O2 [O3 O4]]].
      constructor; cbn [ms_scan ms_below ms_out ms_prevY ms_pos]; try assumption.
      * apply Forall_app. split; [|constructor; [right; lia|constructor]]. eapply Forall_impl; [|exact Hd']. cbn beta. intros w Hw. lia.
      * split; [exact T3|]. apply Forall_forall. intros w Hw. rewrite Forall_forall in T4. specialize (T4 w Hw). unfold pv_le in T4. lia.
      * split; [apply Hcur0|]. intros p. rewrite (proj2 Hcur0), psum_app.
        rewrite (psum_none _ D1); [|intros w Hw; specialize (Hd w Hw); cases_b2z].
        cbn [psum]. unfold atXY. rewrite !Z.eqb_refl. cbn [andb]. lia.
      * unfold ms_ok. cbn [ms_scan ms_below ms_out ms_prevY ms_pos]. split; [exact O1|]. split; [constructor|]. split; [exact O3|]. intros N. contradiction N. reflexivity.
      * intros p. rewrite psum_none; [reflexivity|]. intros w Hw. apply in_app_or in Hw. destruct Hw as [Hw|[<-|[]]]; [specialize (Hd w Hw)|]; cases_b2z.
      * split; [lia|]. split; [intros N; contradiction N; reflexivity|]. apply Forall_app. split; [|constructor; [lia|constructor]].
        eapply Forall_impl; [|exact Hd']. cbn beta. intros w Hw. lia.
      * intros t p. rewrite Mq, Em.
        destruct (Z.ltb_spec t (pv_y v - 1)); [|lia]. rewrite (psum_none (onX (pv_x v) t)); [lia|].
        intros w Hw. apply in_app_or in Hw. destruct Hw as [Hw|[<-|[]]]; [specialize (Hd w Hw)|]; cases_b2z.
      * split; [exact O1|]. intros t p. rewrite Mq. apply Em.
      * intros S t. cbn [econ]. lia.
      * constructor.
      * intros S x t HS. rewrite Er by exact HS.
        destruct (Z.ltb_spec x cx), (Z.ltb_spec x (pv_x v)); try lia; try reflexivity.
        f_equal. apply cellset_of; [apply good_sv; exact O1|]. intros p. rewrite Em. unfold pcnt. rewrite Es, psum_app, (psum_none _ (v :: data)).
        -- rewrite Z.add_0_r. apply psum_ext. intros w Hw. specialize (Hd w Hw). cases_b2z.
        -- intros w Hw. rewrite Forall_forall in Hright. specialize (Hright w Hw). cases_b2z.
Qed.

Theorem merge_sorted_spec : pv_sorted D ->
  exists r', merge_sorted [] D = Some r' /\ res_ok r' /\ forall S x t, S <> [] -> rescount r' S x t = eqS (cellset D x t) S.
Proof.
  intros Hs. unfold merge_sorted. destruct D as [|v data] eqn:ED.
  - exists []. split; [reflexivity|]. split; [split; constructor|]. intros S x t HS. unfold rescount, cellset. cbn [res_find cellmap setProperty].
    rewrite eqS_nil by exact HS. reflexivity.
  - rewrite <- ED in *. pose proof Hs as Hs'. unfold pv_sorted in Hs'. rewrite ED in Hs'. inversion Hs' as [|v' l T3 T4]; subst v' l.
    assert (Pv : P (pv_x v) /\ P (pv_y v)).
    { rewrite Forall_forall in HPD. apply HPD. rewrite ED. left. reflexivity. }
    apply (merge_loop_spec data [v] (pv_x v) (pv_y v) (pv_y v - 1) []). constructor; cbn [ms_scan ms_below ms_out ms_prevY ms_pos].
    + exact ED.
    + constructor; [lia|constructor].
    + split; [exact T3|]. eapply Forall_impl; [|exact T4]. unfold pv_le. intros w Hw. lia.
    + exact Pv.
    + split; [apply mergeProperty_sorted; constructor|]. intros p. rewrite mergeProperty_count. cbn [psum pcount]. unfold atXY. rewrite !Z.eqb_refl. cbn [andb]. lia.
    + unfold ms_ok. cbn [ms_scan ms_below ms_out ms_prevY ms_pos pos_ok]. unfold good. conj; try constructor. intros N. contradiction N. reflexivity.
    + intros p. rewrite psum_none; [reflexivity|]. intros w [<-|[]]. cases_b2z.
    + split; [lia|]. split; [intros N; contradiction N; reflexivity|]. constructor; [lia|constructor].
    + intros t p. unfold sv. cbn [mval pcount]. rewrite (psum_none (beforeX _ _)) by (intros w [<-|[]]; cases_b2z).
      destruct (Z.ltb_spec t (pv_y v - 1)); [|lia]. rewrite psum_none by (intros w [<-|[]]; cases_b2z). lia.
    + unfold good. conj; try constructor. intros t p. unfold sv. cbn [mval pcount]. rewrite (psum_none (beforeX _ _)) by (intros w [<-|[]]; cases_b2z). reflexivity.
    + intros S t. cbn [econ]. lia.
    + constructor.
    + intros S x t HS. unfold rescount. cbn [res_find]. unfold sv. cbn [mval setProperty]. rewrite eqS_nil by exact HS.
      destruct (Z.ltb_spec x (pv_x v)); [|reflexivity].
      assert (Ec : cellset D x t = []).
      { apply prop_set_ext; [apply cellset_set|constructor|]. intros p. rewrite cellset_in. cbn [In]. unfold pcnt. rewrite psum_none; [lia|].
        intros w Hw. rewrite ED in Hw. destruct Hw as [<-|Hw]; [cases_b2z|]. rewrite Forall_forall in T4. specialize (T4 w Hw). unfold pv_le in T4. cases_b2z. }
      rewrite Ec, eqS_nil by exact HS. reflexivity.
    + split; constructor.
Qed.
End Sweep.
