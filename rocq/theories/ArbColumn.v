(* One stop of the scan line: the edges that begin at an abscissa. *)
From Verif Require Import Base Units Outcome Scan90Spec Poly90Spec Poly90Model Poly90Proofs GeoSpec IvlModel RectModel SegModel PolyModel PolyEdge ScanBaseModel ScanBaseOab SnapModel SnapSpec SnapProofs SnapLoops ArbSpec ArbOrder ArbSums ArbModel ArbMaps ArbLess ArbLine.
From Coq Require Import Reals Lra Sorting.Sorted.

(* the order of the events *)
Definition ev_le (a b : seg) : Prop :=
  px (s_low a) < px (s_low b) \/ px (s_low a) = px (s_low b) /\ py (s_low a) < py (s_low b) \/
  s_low a = s_low b /\ (b = a \/ vertical_edge b = true /\ vertical_edge a = false \/ vertical_edge a = false /\ lte a b).

Definition part (dn : list vprop) (k : Z) (e : seg) : Z := tot (fun f => if eq_seg (fst f) e then wt k f else 0) dn.
Definition vsum (dn : list vprop) (k : Z) (p : point) : Z := tot (fun f => if vertical_edge (fst f) && eq_pt (s_low (fst f)) p then wt k f else 0) dn.

Lemma tot_one {A : Type} (f : A -> Z) a : tot f [a] = f a.
Proof. cbn [tot]. lia. Qed.
Lemma nodup_snoc {A : Type} (zs : list A) e : NoDup zs -> ~ In e zs -> NoDup (zs ++ [e]).
Proof.
  induction zs as [|z zs IH]; intros C NI; cbn [app]; [constructor; [intros []|constructor]|]. inversion C as [|? ? C1 C2]; subst. constructor.
  - intros K. apply in_app_or in K as [K|[K|[]]]; [contradiction|]. apply NI. left. symmetry. exact K.
  - apply IH; [exact C2|]. intros K. apply NI. right. exact K.
Qed.
Lemma pt_eta p : p = mk_pt (px p) (py p).
Proof. destruct p; reflexivity. Qed.

Section column.
  Variable l : list vprop.
  Hypothesis nod : noded (map fst l).
  Hypothesis ord : forall e, In e l -> ordered (fst e).
  Hypothesis fit : forall e, In e l -> fits (fst e).
  Hypothesis clo : closed l.
  Hypothesis srt : StronglySorted ev_le (map fst l).
  Let E : list seg := map fst l.
  Let ordE : forall s, In s E -> ordered s := ordE l ord.
  Let fitE : forall s, In s E -> fits s := fitE l fit.

  (* ---------- vertical edges ---------- *)
  Lemma vertical_lt e : In e E -> vertical_edge e = true -> px (s_high e) = px (s_low e) /\ py (s_low e) < py (s_high e).
  Proof. intros H V. apply ordE in H. apply ordered_iff in H. apply vertical_edge_iff in V. lia. Qed.
  Lemma overlap e f : In e E -> In f E -> vertical_edge e = true -> vertical_edge f = true -> px (s_low e) = px (s_low f) ->
    py (s_low e) < py (s_high f) -> py (s_low f) < py (s_high e) -> f = e.
  Proof.
    intros He Hf Ve Vf X A B. pose proof (vertical_lt e He Ve) as [_ Le]. pose proof (vertical_lt f Hf Vf) as [_ Lf].
    apply IZR_lt in A. apply IZR_lt in B. apply IZR_lt in Le. apply IZR_lt in Lf.
    set (y := ((Rmax (IZR (py (s_low e))) (IZR (py (s_low f))) + Rmin (IZR (py (s_high e))) (IZR (py (s_high f)))) / 2)%R).
    assert (Y : (IZR (py (s_low e)) < y < IZR (py (s_high e)) /\ IZR (py (s_low f)) < y < IZR (py (s_high f)))%R).
    { unfold y, Rmax, Rmin. destruct (Rle_dec _ _), (Rle_dec _ _); lra. }
    apply (touch_v E nod ordE e f y He Hf Ve); [lra|]. rewrite X. apply on_vertical; [exact Vf|lra].
  Qed.
  Definition vertex (X y : Z) : Prop := exists e, In e E /\ (s_low e = mk_pt X y \/ s_high e = mk_pt X y).
  Lemma vertex_inside X y e : vertex X y -> In e E -> vertical_edge e = true -> px (s_low e) = X -> py (s_low e) < y -> y < py (s_high e) -> False.
  Proof.
    intros [f [Hf V]] He Ve Xe A B. assert (f = e) as ->.
    { apply (touch_v E nod ordE e f (IZR y) He Hf Ve); [split; apply IZR_lt; lia|]. rewrite Xe. destruct V as [V|V]; [pose proof (on_low f) as O|pose proof (on_high f) as O]; rewrite V in O; exact O. }
    destruct V as [V|V]; rewrite V in *; cbn [px py] in *; lia.
  Qed.
  Lemma vertex_fits X y : vertex X y -> coord_fits X /\ coord_fits y.
  Proof. intros [e [He [H|H]]]; apply fitE in He; unfold fits in He; rewrite H in He; cbn [px py] in He; tauto. Qed.

  (* ---------- the output ---------- *)
  Definition lside (e : seg) (k : Z) : Z := if vertical_edge e then depth_below_left l k (IZR (px (s_low e))) (IZR (py (s_high e))) else cum l k e.
  Definition rside (e : seg) (k : Z) : Z := if vertical_edge e then depth_below l k (IZR (px (s_low e))) (IZR (py (s_high e))) else cumb l k e.
  Definition out_ok (P : seg -> Prop) (out : list osides) : Prop :=
    (forall o, In o out -> In (fst o) E /\ P (fst o) /\ cover_list (lside (fst o)) (fst (snd o)) /\ cover_list (rside (fst o)) (snd (snd o)) /\ fst (snd o) <> snd (snd o)) /\
    (forall e, In e E -> P e -> In e (map fst out) \/ forall L R, cover_list (lside e) L -> cover_list (rside e) R -> L = R) /\
    NoDup (map fst out).
  Lemma out_more (P P' : seg -> Prop) out : out_ok P out -> (forall e, In e E -> P e -> P' e) -> (forall e, In e E -> P' e -> P e \/ forall k, lside e k = rside e k) -> out_ok P' out.
  Proof.
    intros [A [B C]] H K. split; [|split; [|exact C]].
    - intros o O. destruct (A o O) as [A1 [A2 A3]]. split; [exact A1|]. split; [apply H; assumption|exact A3].
    - intros e He P1. destruct (K e He P1) as [K1|K1]; [apply B; assumption|]. right. intros L R CL CR. apply (cover_list_unique (rside e)); [|exact CR]. apply (cover_list_ext (lside e)); [exact K1|exact CL].
  Qed.
  Lemma out_ext (P P' : seg -> Prop) out : out_ok P out -> (forall e, In e E -> (P e <-> P' e)) -> out_ok P' out.
  Proof. intros O H. apply (out_more P); [exact O| |]; intros e He Pe; [|left]; apply H; assumption. Qed.
  Lemma write_ok P out e a b : out_ok P out -> In e E -> ~ P e -> wf a -> wf b -> (forall k, get a k = lside e k) -> (forall k, get b k = rside e k) ->
    out_ok (fun f => P f \/ f = e) (write_out out e a b).
  Proof.
    intros O He NP Wa Wb Ga Gb. pose proof (cover_list_ext _ _ _ Ga (set_cover_list a Wa)) as CA. pose proof (cover_list_ext _ _ _ Gb (set_cover_list b Wb)) as CB.
    unfold write_out. destruct (zs_eqb (pm_set a) (pm_set b)) eqn:Q.
    - apply zs_eqb_iff in Q. destruct O as [A [B C]]. split; [|split; [|exact C]].
      + intros o O. destruct (A o O) as [A1 [A2 A3]]. split; [exact A1|]. split; [left; exact A2|exact A3].
      + intros f Hf [Pf| ->]; [apply B; assumption|]. right. intros L R CL CR. rewrite (cover_list_unique _ _ _ CL CA), (cover_list_unique _ _ _ CR CB). exact Q.
    - assert (NQ : pm_set a <> pm_set b) by (intros K; apply zs_eqb_iff in K; congruence). destruct O as [A [B C]]. split; [|split].
      + intros o O. apply in_app_or in O as [O|[<-|[]]].
        * destruct (A o O) as [A1 [A2 A3]]. split; [exact A1|]. split; [left; exact A2|exact A3].
        * cbn [fst snd]. split; [exact He|]. split; [right; reflexivity|]. auto.
      + intros f Hf [Pf| ->].
        * destruct (B f Hf Pf) as [K|K]; [left; rewrite map_app; apply in_or_app; left; exact K|right; exact K].
        * left. rewrite map_app. apply in_or_app. right. left. reflexivity.
      + rewrite map_app. cbn [map fst].
        assert (NI : ~ In e (map fst out)) by (intros K; apply in_map_iff in K as [o [<- K]]; apply NP, (A o K)).
        apply nodup_snoc; assumption.
  Qed.

  (* ---------- the state at a point ---------- *)
  Definition done_lt (X y : Z) (e : seg) : Prop := px (s_low e) < X \/ px (s_low e) = X /\ (if vertical_edge e then py (s_high e) < y else py (s_low e) < y).
  Definition done_le (X y : Z) (e : seg) : Prop := px (s_low e) < X \/ px (s_low e) = X /\ (if vertical_edge e then py (s_high e) <= y else py (s_low e) <= y).
  Definition nv (e : seg) : Prop := px (s_low e) < px (s_high e).
  Definition new_edges (dn : list vprop) (X y : Z) (ins : list elem) : Prop :=
    StronglySorted below ins /\ (forall a, In a ins -> wf (snd a) /\ forall k, get (snd a) k = part dn k (fst a)) /\
    forall e, In e (map fst ins) <-> In e (map fst dn) /\ nv e /\ s_low e = mk_pt X y.
  Record mid (X y : Z) (d : list elem) (dn : list vprop) (s : hstate) : Prop := mk_mid {
    m_l : l = dn ++ h_rest s;
    m_dn : forall f, In f dn -> px (s_low (fst f)) < X \/ px (s_low (fst f)) = X /\ py (s_low (fst f)) <= y;
    m_rest : forall f, In f (h_rest s) -> X < px (s_low (fst f)) \/ px (s_low (fst f)) = X /\ y <= py (s_low (fst f));
    m_va : wf (h_va s) /\ forall k, get (h_va s) k = vsum dn k (mk_pt X y);
    m_ea : h_va s <> [] -> exists e, h_ea s = Some e /\ In e E /\ vertical_edge e = true /\ s_low e = mk_pt X y;
    m_vb : wf (h_vb s) /\ forall k, get (h_vb s) k = vert l k X (IZR y);
    m_eb : h_vb s <> [] -> exists e, h_eb s = Some e /\ In e E /\ vertical_edge e = true /\ s_high e = mk_pt X y;
    m_ins : new_edges dn X y (h_ins s);
    m_cur : (h_cur s <= length d)%nat /\ (h_cur s = length d -> forall a, In a d -> (height (fst a) (IZR X) < IZR y)%R);
    m_out : out_ok (done_lt X y) (h_out s);
    m_set : (forall a, In a (h_set s) -> fine l a) /\ forall e, In e (map fst (h_set s)) <-> In e E /\ nv e /\ px (s_low e) = X /\ py (s_low e) < y }.

  Lemma part_app dn f k e : part (dn ++ [f]) k e = part dn k e + (if eq_seg (fst f) e then wt k f else 0).
  Proof. unfold part. rewrite tot_app, tot_one. reflexivity. Qed.
  Lemma vsum_app dn f k p : vsum (dn ++ [f]) k p = vsum dn k p + (if vertical_edge (fst f) && eq_pt (s_low (fst f)) p then wt k f else 0).
  Proof. unfold vsum. rewrite tot_app, tot_one. reflexivity. Qed.
  Lemma part_none dn k e : ~ In e (map fst dn) -> part dn k e = 0.
  Proof.
    intros H. apply tot_zero. intros f F. destruct (eq_seg (fst f) e) eqn:Q; [|reflexivity]. exfalso. apply eq_seg_iff in Q. apply H. rewrite <- Q. apply in_map, F.
  Qed.
  Lemma sorted_dn dn f rest : l = dn ++ f :: rest -> forall g, In g dn -> ev_le (fst g) (fst f).
  Proof.
    intros H g G. unfold E in *. rewrite H in srt. clear - srt G. induction dn as [|a dn IH]; [destruct G|]. cbn [app map] in srt. apply StronglySorted_inv in srt as [S F]. rewrite Forall_forall in F.
    destruct G as [<-|G]; [|apply IH; assumption]. apply F. rewrite map_app. apply in_or_app. right. left. reflexivity.
  Qed.
  Lemma sorted_rest dn f rest : l = dn ++ f :: rest -> forall g, In g rest -> ev_le (fst f) (fst g).
  Proof.
    intros H g G. rewrite H in srt. clear - srt G. induction dn as [|a dn IH]; cbn [app map] in srt; apply StronglySorted_inv in srt as [S F]; [|apply IH, S]. rewrite Forall_forall in F. apply F, in_map, G.
  Qed.

  Lemma ss_snoc (a : list elem) b : StronglySorted below a -> (forall c, In c a -> below c b) -> StronglySorted below (a ++ [b]).
  Proof.
    induction a as [|c a IH]; intros H K; cbn [app]; [constructor; constructor|]. apply StronglySorted_inv in H as [H F]. constructor.
    - apply IH; [exact H|]. intros z Z. apply K. right. exact Z.
    - rewrite Forall_forall in *. intros z Z. apply in_app_or in Z as [Z|[<-|[]]]; [apply F, Z|apply K; left; reflexivity].
  Qed.
  Lemma ss_snoc_inv (a : list elem) b : StronglySorted below (a ++ [b]) -> StronglySorted below a /\ forall c, In c a -> below c b.
  Proof.
    induction a as [|c a IH]; intros H; cbn [app] in H; [split; [constructor|intros c []]|]. apply StronglySorted_inv in H as [H F]. destruct (IH H) as [H1 H2]. rewrite Forall_forall in F. split.
    - constructor; [exact H1|]. apply Forall_forall. intros z Z. apply F, in_or_app. left. exact Z.
    - intros z [<-|Z]; [apply F, in_or_app; right; left; reflexivity|apply H2, Z].
  Qed.
  (* adding an edge that is not vertical *)
  Lemma ins_add_ok dn X y ins he k c rest : l = dn ++ (he, (k, c)) :: rest -> nv he -> s_low he = mk_pt X y -> new_edges dn X y ins ->
    new_edges (dn ++ [(he, (k, c))]) X y (ins_add ins he k c).
  Proof.
    intros HL NV LW [S [M I]]. pose proof (sorted_dn dn _ rest HL) as SD. cbn [fst] in SD.
    assert (BEF : forall a, In a ins -> fst a = he \/ lte (fst a) he).
    { intros a A. assert (In (fst a) (map fst ins)) as A' by (apply in_map, A). apply I in A' as [A1 [A2 A3]]. apply in_map_iff in A1 as [g [G1 G2]]. pose proof (SD g G2) as L. rewrite G1 in L.
      destruct L as [L|[L|[_ [L|[[L _]|[_ L]]]]]].
      - rewrite A3, LW in L. lia.
      - rewrite A3, LW in L. lia.
      - left. symmetry. exact L.
      - exfalso. apply vertical_edge_iff in L. unfold nv in NV. lia.
      - right. exact L. }
    assert (VH : vertical_edge he = false) by (destruct (vertical_edge he) eqn:Q; [|reflexivity]; apply vertical_edge_iff in Q; unfold nv in NV; lia).
    assert (WT : forall j (e : seg), wt j (he, (k, c)) = if j =? k then c else 0).
    { intros j e. unfold wt. cbn [fst snd]. rewrite Z.eqb_sym. reflexivity. }
    (* a new element *)
    assert (NEW : ~ In he (map fst ins) -> new_edges (dn ++ [(he, (k, c))]) X y (ins ++ [(he, pm_update [] k c)])).
    { intros NI. destruct (update_spec [] k c wf_nil) as [U1 [U2 _]]. split; [|split].
      - apply ss_snoc; [exact S|]. intros b B. unfold below. cbn [fst]. destruct (BEF b B) as [Q|Q]; [|exact Q]. exfalso. apply NI. rewrite <- Q. apply in_map, B.
      - intros b B. apply in_app_or in B as [B|[<-|[]]].
        + destruct (M b B) as [W G]. split; [exact W|]. intros j. rewrite part_app, G. cbn [fst]. destruct (eq_seg he (fst b)) eqn:Q; [|lia]. apply eq_seg_iff in Q. exfalso. apply NI. rewrite Q. apply in_map, B.
        + cbn [fst snd]. split; [exact U1|]. intros j. rewrite part_app, U2. cbn [fst]. rewrite (proj2 (eq_seg_iff he he) eq_refl), (WT j he), part_none; [reflexivity|].
          intros K. apply NI, I. auto.
      - intros e. rewrite !map_app, !in_app_iff, I. cbn [map fst In]. split.
        + intros [[A1 A2]|[<-|[]]]; [tauto|]. auto.
        + intros [[A1|[<-|[]]] A2]; [tauto|]. auto. }
    unfold ins_add. destruct (rev ins) as [|[he' m] r] eqn:RV.
    - assert (ins = []) as -> by (rewrite <- (rev_involutive ins), RV; reflexivity). apply NEW. intros [].
    - assert (EQ : ins = @app elem (rev r) (@cons elem (he', m) nil)) by (rewrite <- (rev_involutive ins), RV; reflexivity).
      destruct (ss_snoc_inv (rev r) (he', m)) as [S1 S2]; [rewrite <- EQ; exact S|].
      destruct (seg_eqb he' he) eqn:Q.
      + apply seg_eqb_iff in Q. subst he'. destruct (M (he, m)) as [W G]; [rewrite EQ; apply in_or_app; right; left; reflexivity|]. cbn [fst snd] in W, G.
        destruct (update_spec m k c W) as [U1 [U2 _]]. split; [|split].
        * apply ss_snoc; [exact S1|exact S2].
        * intros b B. apply in_app_or in B as [B|[<-|[]]].
          -- destruct (M b) as [Wb Gb]; [rewrite EQ; apply in_or_app; left; exact B|]. split; [exact Wb|]. intros j. rewrite part_app, Gb. cbn [fst]. destruct (eq_seg he (fst b)) eqn:Q; [|lia].
             apply eq_seg_iff in Q. exfalso. apply S2 in B. unfold below in B. cbn [fst] in B. rewrite <- Q in B. apply (lte_irrefl _ B).
          -- cbn [fst snd]. split; [exact U1|]. intros j. rewrite part_app, U2, G. cbn [fst]. rewrite (proj2 (eq_seg_iff he he) eq_refl), (WT j he). reflexivity.
        * intros e. rewrite map_app, in_app_iff. pose proof (I e) as Ie. rewrite EQ, !map_app, !in_app_iff in Ie. rewrite map_app, in_app_iff. cbn [map fst In] in Ie |- *. split.
          -- intros H. assert (H' : In e (map fst (rev r)) \/ he = e \/ False) by exact H. apply Ie in H'. tauto.
          -- intros [[A1|[<-|[]]] A2]; [apply Ie; auto|]. right. left. reflexivity.
      + apply NEW. intros K. assert (NQ : he' <> he) by (intros Q2; apply seg_eqb_iff in Q2; congruence).
        rewrite EQ, map_app in K. apply in_app_or in K as [K|[K|[]]]; [|contradiction]. apply in_map_iff in K as [b [K1 K2]]. pose proof (S2 b K2) as B1. unfold below in B1. cbn [fst] in B1. rewrite K1 in B1.
        destruct (BEF (he', m)) as [B2|B2]; [rewrite EQ; apply in_or_app; right; left; reflexivity|contradiction|]. cbn [fst] in B2.
        assert (H1 : In he E) by (unfold E; rewrite HL, map_app; apply in_or_app; right; left; reflexivity).
        assert (H2 : In he' E).
        { assert (In he' (map fst dn)) as H2 by (apply I; rewrite EQ, map_app; apply in_or_app; right; left; reflexivity). unfold E. rewrite HL, map_app. apply in_or_app. left. exact H2. }
        apply (lte_asym E nod ordE he he' H1 H2 B1 B2).
  Qed.

  Lemma read_ok X y d dn s f rest' : mid X y d dn s -> h_rest s = f :: rest' -> s_low (fst f) = mk_pt X y ->
    exists s', h_read s = Ok s' /\ mid X y d (dn ++ [f]) s' /\ h_yy s' = y /\ h_first s' = false /\ h_rest s' = rest'.
  Proof.
    intros M R LW. destruct f as [he [k c]]. cbn [fst] in LW. destruct M as [ML MD MR [MVA MVG] MEA MVB MEB MI MC MO MS]. rewrite R in ML.
    assert (HE : In he E) by (unfold E; rewrite ML, map_app; apply in_or_app; right; left; reflexivity).
    set (s1 := if sb_vertical he then
          mk_h (pm_update (h_va s) k c) (h_vb s) (Some he) (h_eb s) (h_ins s) (h_cur s) y false rest' (h_out s) (h_set s)
        else mk_h (h_va s) (h_vb s) (h_ea s) (h_eb s) (ins_add (h_ins s) he k c) (h_cur s) y false rest' (h_out s) (h_set s)).
    exists s1. split; [|split; [|unfold s1; destruct (sb_vertical he); auto]].
    - unfold h_read. rewrite R. replace (py (s_low he)) with y by (rewrite LW; reflexivity). fold s1. destruct (h_vb s) as [|v0 vs] eqn:VB; [unfold s1; rewrite ?VB; reflexivity|].
      destruct MEB as [e [-> [_ [_ HH]]]]; [discriminate|]. rewrite HH. cbn [py]. rewrite Z.ltb_irrefl. unfold s1. rewrite ?VB. reflexivity.
    - assert (ML' : l = (dn ++ [(he, (k, c))]) ++ rest') by (rewrite <- app_assoc; exact ML).
      assert (MD' : forall f, In f (dn ++ [(he, (k, c))]) -> px (s_low (fst f)) < X \/ px (s_low (fst f)) = X /\ py (s_low (fst f)) <= y).
      { intros f F. apply in_app_or in F as [F|[<-|[]]]; [apply MD, F|]. cbn [fst]. rewrite LW. cbn [px py]. lia. }
      assert (MR' : forall f, In f rest' -> X < px (s_low (fst f)) \/ px (s_low (fst f)) = X /\ y <= py (s_low (fst f))).
      { intros f F. apply MR. rewrite R. right. exact F. }
      change (sb_vertical he) with (vertical_edge he) in s1. destruct (vertical_edge he) eqn:V; unfold s1; constructor; cbn [h_rest h_va h_vb h_ea h_eb h_ins h_cur h_out h_set]; try assumption.
      + destruct (update_spec (h_va s) k c MVA) as [U1 [U2 _]]. split; [exact U1|]. intros j. rewrite U2, vsum_app, MVG. cbn [fst]. rewrite V, (proj2 (eq_pt_iff _ _) LW). cbn [andb]. unfold wt. cbn [fst snd]. rewrite (Z.eqb_sym k j). reflexivity.
      + intros _. exists he. auto.
      + destruct MI as [I1 [I2 I3]]. split; [exact I1|]. split.
        * intros a A. destruct (I2 a A) as [W G]. split; [exact W|]. intros j. rewrite part_app, G. cbn [fst]. destruct (eq_seg he (fst a)) eqn:Q; [|lia]. apply eq_seg_iff in Q. exfalso.
          assert (In (fst a) (map fst (h_ins s))) as K by (apply in_map, A). apply I3 in K as [_ [K _]]. rewrite <- Q in K. apply vertical_edge_iff in V. unfold nv in K. lia.
        * intros e. rewrite I3, map_app, in_app_iff. cbn [map fst In]. split; [tauto|]. intros [[A|[<-|[]]] B]; [tauto|]. exfalso. destruct B as [B _]. apply vertical_edge_iff in V. unfold nv in B. lia.
      + split; [exact MVA|]. intros j. rewrite vsum_app, MVG. cbn [fst]. rewrite V. cbn [andb]. lia.
      + apply (ins_add_ok dn X y (h_ins s) he k c rest'); [exact ML| |exact LW|exact MI]. apply nv_lt; [apply ordE, HE|exact V].
  Qed.

  (* ---------- all edges that begin at a point are there ---------- *)
  Lemma nv_vertical e : nv e -> vertical_edge e = false.
  Proof. intros H. destruct (vertical_edge e) eqn:Q; [|reflexivity]. apply vertical_edge_iff in Q. unfold nv in H. lia. Qed.
  Lemma lte_nv e f : lte e f -> nv e /\ nv f.
  Proof. intros [x [A [B _]]]. split; [apply (inr_nv _ _ A)|apply (inr_nv _ _ B)]. Qed.
  Lemma own_part dn rest k e : l = dn ++ rest -> ~ In e (map fst rest) -> own l k e = part dn k e.
  Proof.
    intros H N. unfold own. rewrite H, tot_app. fold (part dn k e). fold (part rest k e). rewrite (part_none rest) by exact N. lia.
  Qed.
  Lemma write_ins_ok X y full : StronglySorted below full ->
    (forall e, In e (map fst full) <-> In e E /\ nv e /\ s_low e = mk_pt X y) ->
    (forall a, In a full -> wf (snd a) /\ forall k, get (snd a) k = own l k (fst a)) ->
    forall ins pre base out set P, full = pre ++ ins -> wf base -> (forall a ins', ins = a :: ins' -> forall k, get base k = cumb l k (fst a)) ->
    (forall a, In a ins -> ~ P (fst a)) -> out_ok P out ->
    exists out' set', write_ins base ins out set = (out', set') /\ out_ok (fun e => P e \/ In e (map fst ins)) out' /\
      (forall a, In a set' -> In a set \/ fine l a) /\ (forall e, In e (map fst set') <-> In e (map fst set) \/ In e (map fst ins)).
  Proof.
    intros SF FE FG. induction ins as [|[he m] ins IH]; intros pre base out set P FU WB CH NP O; cbn [write_ins].
    { exists out, set. split; [reflexivity|]. split; [apply (out_ext P); [exact O|]; intros e _; cbn [map In]; tauto|]. split; [auto|]. intros e. cbn [map In]. tauto. }
    assert (IH0 : In (he, m) full) by (rewrite FU; apply in_or_app; right; left; reflexivity).
    destruct (FG _ IH0) as [WM GM]. cbn [fst snd] in WM, GM.
    assert (HH : In he (map fst full)) by (apply (in_map fst) in IH0; exact IH0). apply FE in HH as [HE [HN HL]].
    assert (CB : forall k, get base k = cumb l k he) by (intros k; apply (CH (he, m) ins eq_refl)).
    destruct (merge_spec m base WM WB) as [W' [G' _]].
    assert (G2 : forall k, get (pm_merge m base) k = cum l k he) by (intros k; rewrite G', GM, CB; unfold cum; lia).
    destruct (IH (pre ++ [(he, m)]) (pm_merge m base) (write_out out he (pm_merge m base) base) (set ++ [(he, pm_merge m base)]) (fun f => P f \/ f = he)) as [out' [set' [Q1 [Q2 [Q3 Q4]]]]].
    - rewrite <- app_assoc. exact FU.
    - exact W'.
    - intros [he2 m2] ins' -> k. cbn [fst]. rewrite G2. symmetry.
      assert (I2 : In (he2, m2) full) by (rewrite FU; apply in_or_app; right; right; left; reflexivity).
      assert (H2 : In he2 (map fst full)) by (apply (in_map fst) in I2; exact I2). apply FE in H2 as [HE2 [HN2 HL2]].
      assert (S2 : StronglySorted below ((he, m) :: (he2, m2) :: ins')).
      { clear - SF FU. rewrite FU in SF. clear FU. induction pre as [|z pre IHp]; [exact SF|]. cbn [app] in SF. apply StronglySorted_inv in SF as [SF _]. apply IHp, SF. }
      assert (B12 : lte he he2). { apply StronglySorted_inv in S2 as [_ F]. rewrite Forall_forall in F. apply (F (he2, m2)). left. reflexivity. }
      apply (cumb_next l nod ord clo); [exact HE|exact HE2|congruence|exact HN|exact B12|].
      intros f Hf Lf B1 B2. assert (In f (map fst full)) as K by (apply FE; split; [exact Hf|split; [apply (lte_nv _ _ B2)|congruence]]).
      rewrite FU, map_app in K. apply in_app_or in K as [K|[K|[K|K]]].
      + apply in_map_iff in K as [z [<- K]]. assert (below z (he, m)) as BZ.
        { clear - SF FU K. rewrite FU in SF. clear FU. induction pre as [|w pre IHp]; [destruct K|]. cbn [app] in SF. apply StronglySorted_inv in SF as [SF F]. destruct K as [<-|K]; [|apply IHp; assumption].
          rewrite Forall_forall in F. apply F, in_or_app. right. left. reflexivity. }
        unfold below in BZ. cbn [fst] in BZ. apply (lte_asym E nod ordE _ _ HE Hf B1 BZ).
      + cbn [fst] in K. subst f. apply (lte_irrefl _ B1).
      + cbn [fst] in K. subst f. apply (lte_irrefl _ B2).
      + apply in_map_iff in K as [z [<- K]]. apply StronglySorted_inv in S2 as [S2 _]. apply StronglySorted_inv in S2 as [_ F]. rewrite Forall_forall in F. pose proof (F z K) as BZ. unfold below in BZ. cbn [fst] in BZ.
        apply (lte_asym E nod ordE _ _ HE2 Hf BZ B2).
    - intros a A [K|K]; [apply (NP a); [right; exact A|exact K]|].
      assert (below (he, m) a) as B.
      { clear - SF FU A. rewrite FU in SF. clear FU. induction pre as [|z pre IHp]; cbn [app] in SF; apply StronglySorted_inv in SF as [SF F]; [|apply IHp, SF]. rewrite Forall_forall in F. apply F, A. }
      unfold below in B. cbn [fst] in B. rewrite K in B. apply (lte_irrefl _ B).
    - apply write_ok; [exact O|exact HE|apply (NP (he, m)); left; reflexivity|exact W'|exact WB| |].
      + intros k. unfold lside. rewrite (nv_vertical he HN). apply G2.
      + intros k. unfold rside. rewrite (nv_vertical he HN). apply CB.
    - exists out', set'. split; [exact Q1|]. split; [|split].
      + apply (out_ext _ _ _ Q2). intros e _. cbn [map fst In]. intuition.
      + intros a A. destruct (Q3 a A) as [B|B]; [|right; exact B]. apply in_app_or in B as [B|[<-|[]]]; [left; exact B|right].
        split; [exact HE|]. split; [exact HN|]. split; [exact W'|exact G2].
      + intros e. rewrite Q4, map_app, in_app_iff. cbn [map fst In]. tauto.
  Qed.

  Record post (X y : Z) (d : list elem) (dn : list vprop) (s : hstate) : Prop := mk_post {
    p_l : l = dn ++ h_rest s;
    p_dn : forall f, In f dn -> px (s_low (fst f)) < X \/ px (s_low (fst f)) = X /\ py (s_low (fst f)) <= y;
    p_rest : forall f, In f (h_rest s) -> X < px (s_low (fst f)) \/ px (s_low (fst f)) = X /\ y < py (s_low (fst f));
    p_va : wf (h_va s) /\ forall k, get (h_va s) k = vsum dn k (mk_pt X y);
    p_ea : h_va s <> [] -> exists e, h_ea s = Some e /\ In e E /\ vertical_edge e = true /\ s_low e = mk_pt X y;
    p_cur : (h_cur s <= length d)%nat /\ (h_cur s = length d -> forall a, In a d -> (height (fst a) (IZR X) <= IZR y)%R);
    p_out : out_ok (done_le X y) (h_out s);
    p_set : (forall a, In a (h_set s) -> fine l a) /\ forall e, In e (map fst (h_set s)) <-> In e E /\ nv e /\ px (s_low e) = X /\ py (s_low e) <= y }.

  Lemma in_parts dn rest e : l = dn ++ rest -> (In e E <-> In e (map fst dn) \/ In e (map fst rest)).
  Proof. intros H. unfold E. rewrite H, map_app, in_app_iff. reflexivity. Qed.

  Lemma flush_ok X y d dn s : good l d -> has l d (left_at X) -> vertex X y -> mid X y d dn s -> h_yy s = y ->
    (forall f, In f (h_rest s) -> s_low (fst f) <> mk_pt X y) ->
    exists s1, flush X d s = Ok s1 /\ post X y d dn s1 /\ h_rest s1 = h_rest s /\ h_va s1 = h_va s /\ h_first s1 = h_first s.
  Proof.
    intros G Hd VX M YY NR. destruct M as [ML MD MR MVA MEA [MVB MVBG] MEB [I1 [I2 I3]] [MC MCA] MO [MS MS']]. destruct (vertex_fits X y VX) as [FX FY].
    unfold flush. rewrite YY. destruct (props_below_ok l nod ord fit clo X y d (h_cur s) G Hd FX FY MC MCA) as [bl [cur [-> [WB [GB [CL CA]]]]]]. cbn [obind]. cbv iota beta zeta.
    destruct (merge_spec (h_vb s) bl MVB WB) as [WV [GV _]].
    assert (GV' : forall k, get (pm_merge (h_vb s) bl) k = depth_below l k (IZR X) (IZR y)).
    { intros k. rewrite GV, MVBG, GB, (green l ord clo). lia. }
    set (P1 := fun e => done_lt X y e \/ vertical_edge e = true /\ s_high e = mk_pt X y).
    assert (O1 : exists out1, (match h_vb s with [] => Ok (h_out s) | _ => match h_eb s with None => Undefined | Some e => Ok (write_out (h_out s) e bl (pm_merge (h_vb s) bl)) end end) = Ok out1 /\ out_ok P1 out1).
    { destruct (h_vb s) as [|v0 vs] eqn:VB.
      - exists (h_out s). split; [reflexivity|]. apply (out_more (done_lt X y)); [exact MO|intros e He K; left; exact K|]. intros e He [K|[K1 K2]]; [left; exact K|right]. intros k. unfold lside, rside. rewrite K1.
        destruct (vertical_lt e He K1) as [EX _]. assert (px (s_low e) = X) as PX by (rewrite <- EX, K2; reflexivity). rewrite (green l ord clo). rewrite K2. cbn [py].
        rewrite PX, <- MVBG. cbn [get]. lia.
      - destruct MEB as [e [EB [He [Ve HH]]]]; [discriminate|]. rewrite EB. exists (write_out (h_out s) e bl (pm_merge (v0 :: vs) bl)). split; [reflexivity|].
        destruct (vertical_lt e He Ve) as [EX LY]. assert (PX : px (s_low e) = X) by (rewrite <- EX, HH; reflexivity).
        apply (out_ext (fun f => done_lt X y f \/ f = e)).
        + apply write_ok; [exact MO|exact He| |exact WB|exact WV| |].
          * unfold done_lt. rewrite Ve, HH. cbn [py]. lia.
          * intros k. unfold lside. rewrite Ve, HH, PX. cbn [py]. apply GB.
          * intros k. unfold rside. rewrite Ve, HH, PX. cbn [py]. apply GV'.
        + intros f Hf. unfold P1. split; intros [K|K]; [left; exact K|subst f; right; auto|left; exact K|right].
          destruct K as [K1 K2]. destruct (vertical_lt f Hf K1) as [FX' FY']. apply (overlap e f He Hf Ve K1).
          * rewrite PX, <- FX', K2. reflexivity.
          * rewrite K2. rewrite HH in LY. exact LY.
          * rewrite HH. rewrite K2 in FY'. exact FY'. }
    destruct O1 as [out1 [-> O1]]. cbn [obind].
    assert (FE : forall e, In e (map fst (h_ins s)) <-> In e E /\ nv e /\ s_low e = mk_pt X y).
    { intros e. rewrite I3, (in_parts dn (h_rest s) e ML). split; [tauto|]. intros [[K|K] J]; [tauto|]. exfalso. apply in_map_iff in K as [f [<- K]]. apply (NR f K), J. }
    assert (NREST : forall e, In e (map fst (h_ins s)) -> ~ In e (map fst (h_rest s))).
    { intros e K J. apply FE in K. apply in_map_iff in J as [f [<- J]]. apply (NR f J), K. }
    destruct (write_ins_ok X y (h_ins s) I1 FE) with (ins := h_ins s) (pre := @nil elem) (base := pm_merge (h_vb s) bl) (out := out1) (set := h_set s) (P := P1) as [out' [set' [Q1 [Q2 [Q3 Q4]]]]].
    - intros a A. destruct (I2 a A) as [W K]. split; [exact W|]. intros k. rewrite K. symmetry. apply (own_part dn (h_rest s)); [exact ML|]. apply NREST, in_map, A.
    - reflexivity.
    - exact WV.
    - intros a ins' HI k. rewrite GV'. symmetry. assert (In (fst a) (map fst (h_ins s))) as A by (rewrite HI; left; reflexivity). apply FE in A as [A1 [A2 A3]].
      replace X with (px (s_low (fst a))) by (rewrite A3; reflexivity). replace y with (py (s_low (fst a))) by (rewrite A3; reflexivity). apply (cumb_first l nod ord); [exact A1|exact A2|].
      intros f Hf Lf B. assert (In f (map fst (h_ins s))) as K by (apply FE; split; [exact Hf|split; [apply (lte_nv _ _ B)|congruence]]).
      apply in_map_iff in K as [z [<- K]]. rewrite HI in K, I1. apply StronglySorted_inv in I1 as [_ F]. rewrite Forall_forall in F. destruct K as [<-|K]; [apply (lte_irrefl _ B)|].
      pose proof (F z K) as B'. unfold below in B'. apply (lte_asym E nod ordE _ _ A1 Hf B' B).
    - intros a A [K|[K _]]; assert (In (fst a) (map fst (h_ins s))) as A' by (apply in_map, A); apply FE in A' as [_ [A2 A3]].
      + unfold done_lt in K. rewrite (nv_vertical _ A2), A3 in K. cbn [px py] in K. lia.
      + rewrite (nv_vertical _ A2) in K. discriminate.
    - exact O1.
    - rewrite Q1. eexists. split; [reflexivity|]. split; [|split; [reflexivity|split; reflexivity]]. constructor; cbn [h_rest h_va h_vb h_ea h_eb h_ins h_cur h_out h_set]; try assumption.
      + intros f F. pose proof (MR f F) as K. pose proof (NR f F) as K'. destruct K as [K|[K1 K2]]; [left; exact K|right]. split; [exact K1|]. destruct (Z.eq_dec y (py (s_low (fst f)))) as [Q|Q]; [|lia]. exfalso. apply K'.
        rewrite (pt_eta (s_low (fst f))), K1, <- Q. reflexivity.
      + split; assumption.
      + apply (out_ext _ _ _ Q2). intros e He. unfold P1. rewrite FE. unfold done_lt, done_le. destruct (vertical_edge e) eqn:V.
        * destruct (vertical_lt e He V) as [EX EY]. split.
          -- intros [[[K|K]|[_ K]]|K]; [lia|lia|rewrite <- EX, K; cbn [px py]; lia|]. destruct K as [_ [K _]]. apply nv_vertical in K. congruence.
          -- intros [K|[K1 K2]]; [left; left; left; exact K|left]. destruct (Z.eq_dec (py (s_high e)) y) as [Q|Q]; [|left; right; lia]. right. split; [reflexivity|]. rewrite (pt_eta (s_high e)), EX, K1, Q. reflexivity.
        * split.
          -- intros [[[K|K]|[K _]]|[_ [_ K]]]; [lia|lia|discriminate|]. rewrite K. cbn [px py]. lia.
          -- intros [K|[K1 K2]]; [left; left; left; exact K|]. destruct (Z.eq_dec (py (s_low e)) y) as [Q|Q]; [|left; left; right; lia]. right. split; [exact He|]. split; [apply nv_lt; [apply ordE, He|exact V]|]. rewrite (pt_eta (s_low e)), K1, Q. reflexivity.
      + split; [intros a A; destruct (Q3 a A) as [K|K]; [apply MS, K|exact K]|]. intros e. rewrite Q4, MS', FE. split.
        * intros [K|[K1 [K2 K3]]]; [intuition lia|]. rewrite K3. cbn [px py]. split; [exact K1|]. split; [exact K2|]. lia.
        * intros [K1 [K2 [K3 K4]]]. destruct (Z.eq_dec (py (s_low e)) y) as [Q|Q]; [|left; split; [exact K1|split; [exact K2|lia]]]. right. split; [exact K1|]. split; [exact K2|]. rewrite (pt_eta (s_low e)), K3, Q. reflexivity.
  Qed.

  (* ---------- on to the next point ---------- *)
  (* vertical edges that begin at (X, y) *)
  Lemma vsum_own dn rest X y k e : l = dn ++ rest -> (forall f, In f rest -> s_low (fst f) <> mk_pt X y) -> In e E -> vertical_edge e = true -> s_low e = mk_pt X y ->
    vsum dn k (mk_pt X y) = own l k e.
  Proof.
    intros HL NR He Ve Le. rewrite (own_part dn rest k e HL).
    - unfold vsum, part. apply tot_ext. intros f F. assert (EQ : vertical_edge (fst f) && eq_pt (s_low (fst f)) (mk_pt X y) = eq_seg (fst f) e); [|rewrite EQ; reflexivity].
      apply eq_true_iff_eq. rewrite andb_true_iff, eq_pt_iff, eq_seg_iff. split; [|intros ->; auto]. intros [V L].
      assert (Hf : In (fst f) E) by (apply (in_parts dn rest _ HL); left; apply in_map, F).
      destruct (vertical_lt e He Ve) as [_ Y1]. destruct (vertical_lt (fst f) Hf V) as [_ Y2].
      apply (overlap e (fst f) He Hf Ve V); [congruence| |]; rewrite Le, L in *; cbn [px py] in *; assumption.
    - intros K. apply in_map_iff in K as [f [K1 K2]]. apply (NR f K2). congruence.
  Qed.
  Lemma vsum_none dn X y k : (forall f, In f dn -> s_low (fst f) <> mk_pt X y) -> vsum dn k (mk_pt X y) = 0.
  Proof. intros H. apply tot_zero. intros f F. destruct (vertical_edge (fst f) && _) eqn:Q; [|reflexivity]. apply andb_true_iff in Q as [_ Q]. apply eq_pt_iff in Q. exfalso. apply (H f F Q). Qed.
  Lemma new_none dn X y : (forall f, In f dn -> s_low (fst f) <> mk_pt X y) -> new_edges dn X y [].
  Proof.
    intros H. split; [constructor|]. split; [intros a []|]. intros e. cbn [map In]. split; [intros []|]. intros [K [_ L]]. apply in_map_iff in K as [f [<- K]]. apply (H f K L).
  Qed.

  (* to a point (X, y2) above that no edge begins below; vertical edges that go up from (X, y) end there or have gone before *)
  Lemma next_ok X y y2 d dn s yy fi : vertex X y -> post X y d dn s -> y < y2 ->
    (forall f, In f (h_rest s) -> X < px (s_low (fst f)) \/ px (s_low (fst f)) = X /\ y2 <= py (s_low (fst f))) ->
    (forall k, get (h_va s) k = vert l k X (IZR y2)) -> (h_va s <> [] -> exists e, h_ea s = Some e /\ In e E /\ vertical_edge e = true /\ s_high e = mk_pt X y2) ->
    (forall e, In e E -> vertical_edge e = true -> s_low e = mk_pt X y -> py (s_high e) < y2 -> forall k, own l k e = 0) ->
    mid X y2 d dn (mk_h [] (h_va s) (h_ea s) (h_ea s) [] (h_cur s) yy fi (h_rest s) (h_out s) (h_set s)).
  Proof.
    intros VX P LT NR VG EA ZS. destruct P as [PL PD PR [PVA PVG] PEA [PC PCA] PO [PS PS']].
    assert (DN : forall f, In f dn -> s_low (fst f) <> mk_pt X y2).
    { intros f F K. apply PD in F. rewrite K in F. cbn [px py] in F. lia. }
    assert (GAP : forall e, In e E -> px (s_low e) = X -> py (s_low e) < y2 -> py (s_low e) <= y).
    { intros e He A B. apply (in_parts dn (h_rest s) e PL) in He as [He|He]; apply in_map_iff in He as [f [<- F]].
      - apply PD in F. lia.
      - apply NR in F. lia. }
    constructor; cbn [h_rest h_va h_vb h_ea h_eb h_ins h_cur h_out h_set]; try assumption.
    - intros f F. apply PD in F. lia.
    - split; [apply wf_nil|]. intros k. rewrite vsum_none by exact DN. reflexivity.
    - intros K. exfalso. apply K. reflexivity.
    - split; assumption.
    - apply new_none, DN.
    - split; [exact PC|]. intros Q a A. pose proof (PCA Q a A). apply IZR_lt in LT. lra.
    - apply (out_more (done_le X y)); [exact PO| |].
      + intros e He. unfold done_le, done_lt. destruct (vertical_edge e); lia.
      + intros e He. unfold done_lt, done_le. destruct (vertical_edge e) eqn:V.
        * intros [K|[K1 K2]]; [left; left; exact K|]. destruct (vertical_lt e He V) as [EX EY]. destruct (Z_le_gt_dec (py (s_high e)) y) as [Q|Q]; [left; right; auto|].
          pose proof (GAP e He K1 ltac:(lia)) as LY. destruct (Z.eq_dec (py (s_low e)) y) as [Q2|Q2]; [|exfalso; apply (vertex_inside X y e VX He V K1); lia].
          right. intros k. unfold lside, rside. rewrite V. rewrite (green l ord clo), (vert_own l nod ord k e He V), (ZS e He V); [lia| |exact K2]. rewrite (pt_eta (s_low e)), K1, Q2. reflexivity.
        * intros [K|[K1 K2]]; [left; left; exact K|left; right]. split; [exact K1|]. apply GAP; assumption.
    - split; [exact PS|]. intros e. rewrite PS'. split; intros [K1 [K2 [K3 K4]]]; (split; [exact K1|split; [exact K2|split; [exact K3|]]]); [lia|]. apply GAP; assumption.
  Qed.
  Lemma jump_ok X y d dn s e yy fi : vertex X y -> post X y d dn s -> h_va s <> [] -> h_ea s = Some e ->
    (forall f, In f (h_rest s) -> X < px (s_low (fst f)) \/ px (s_low (fst f)) = X /\ py (s_high e) <= py (s_low (fst f))) ->
    mid X (py (s_high e)) d dn (mk_h [] (h_va s) (h_ea s) (h_ea s) [] (h_cur s) yy fi (h_rest s) (h_out s) (h_set s)) /\ vertex X (py (s_high e)).
  Proof.
    intros VX P NV EA NR. destruct (p_ea _ _ _ _ _ P NV) as [e' [EA' [He [Ve Le]]]]. assert (e' = e) as -> by congruence. destruct (vertical_lt e He Ve) as [EX EY].
    assert (PX : px (s_low e) = X) by (rewrite Le; reflexivity). assert (PY : py (s_low e) = y) by (rewrite Le; reflexivity).
    assert (HH : s_high e = mk_pt X (py (s_high e))) by (rewrite (pt_eta (s_high e)) at 1; rewrite EX, PX; reflexivity).
    assert (NRS : forall f, In f (h_rest s) -> s_low (fst f) <> mk_pt X y).
    { intros f F K. apply (p_rest _ _ _ _ _ P) in F. rewrite K in F. cbn [px py] in F. lia. }
    split; [|exists e; auto]. apply (next_ok X y); try assumption.
    - lia.
    - intros k. destruct (p_va _ _ _ _ _ P) as [_ G]. rewrite G, (vsum_own dn (h_rest s) X y k e (p_l _ _ _ _ _ P) NRS He Ve Le). rewrite <- PX. symmetry. apply (vert_own l nod ord); assumption.
    - intros _. exists e. auto.
    - intros f Hf Vf Lf LT k. exfalso. assert (f = e) as ->; [|lia]. destruct (vertical_lt f Hf Vf) as [FX FY]. apply (overlap e f He Hf Ve Vf); [congruence|rewrite Lf in FY; cbn [py] in FY; lia|rewrite Lf; cbn [py]; lia].
  Qed.
  Lemma step_ok X y d dn s f rest : vertex X y -> post X y d dn s -> h_rest s = f :: rest -> px (s_low (fst f)) = X ->
    (forall e, h_va s <> [] -> h_ea s = Some e -> py (s_low (fst f)) <= py (s_high e)) ->
    mid X (py (s_low (fst f))) d dn (h_swap s).
  Proof.
    intros VX P R FX HE. pose proof (p_l _ _ _ _ _ P) as PL. rewrite R in PL.
    assert (Hf : In (fst f) E) by (apply (in_parts dn (f :: rest) _ PL); right; left; reflexivity).
    assert (LT : y < py (s_low (fst f))).
    { pose proof (p_rest _ _ _ _ _ P f) as K. rewrite R in K. specialize (K (or_introl eq_refl)). lia. }
    assert (NR : forall g, In g (h_rest s) -> X < px (s_low (fst g)) \/ px (s_low (fst g)) = X /\ py (s_low (fst f)) <= py (s_low (fst g))).
    { intros g G. rewrite R in G. destruct G as [<-|G]; [lia|]. pose proof (sorted_rest dn f rest PL g G) as K. destruct K as [K|[K|[K _]]]; [lia|lia|rewrite <- K; lia]. }
    assert (NRS : forall f, In f (h_rest s) -> s_low (fst f) <> mk_pt X y).
    { intros g F K. apply (p_rest _ _ _ _ _ P) in F. rewrite K in F. cbn [px py] in F. lia. }
    assert (VF : vertex X (py (s_low (fst f)))).
    { exists (fst f). split; [exact Hf|]. left. rewrite (pt_eta (s_low (fst f))) at 1. rewrite FX. reflexivity. }
    assert (EA : h_va s <> [] -> exists e, h_ea s = Some e /\ In e E /\ vertical_edge e = true /\ s_low e = mk_pt X y /\ s_high e = mk_pt X (py (s_low (fst f)))).
    { intros NV. destruct (p_ea _ _ _ _ _ P NV) as [e [EA [He [Ve Le]]]]. exists e. split; [exact EA|]. split; [exact He|]. split; [exact Ve|]. split; [exact Le|].
      destruct (vertical_lt e He Ve) as [EX EY]. pose proof (HE e NV EA) as K. destruct (Z.eq_dec (py (s_low (fst f))) (py (s_high e))) as [Q|Q].
      - rewrite (pt_eta (s_high e)), EX, Le, Q. reflexivity.
      - exfalso. apply (vertex_inside X _ e VF He Ve); [rewrite Le; reflexivity|rewrite Le; exact LT|lia]. }
    assert (VG : forall k, get (h_va s) k = vert l k X (IZR (py (s_low (fst f))))).
    { intros k. destruct (h_va s) as [|v0 vs] eqn:VA.
      - cbn [get]. symmetry. assert (Z0 : forall e, In e E -> vertical_edge e = true -> s_low e = mk_pt X y -> forall k, own l k e = 0).
        { intros e He Ve Le j. rewrite <- (vsum_own dn (h_rest s) X y j e); try assumption; [|rewrite R; exact PL]. destruct (p_va _ _ _ _ _ P) as [_ G]. rewrite <- G, VA. reflexivity. }
        destruct (Exists_dec (fun e => vertical_edge e = true /\ s_high e = mk_pt X (py (s_low (fst f))) /\ s_low e = mk_pt X y) E) as [D|D].
        { intros e. destruct (vertical_edge e); [|right; intros [K _]; discriminate]. destruct (pt_dec (s_high e) (mk_pt X (py (s_low (fst f))))) as [Q|Q]; [|right; tauto]. destruct (pt_dec (s_low e) (mk_pt X y)); [left|right]; tauto. }
        + apply Exists_exists in D as [e [He [Ve [HH Le]]]]. pose proof (vert_own l nod ord k e He Ve) as VO. rewrite HH, Le in VO. cbn [px py] in VO. rewrite VO. apply Z0; assumption.
        + apply (vert_none l). intros e He A B [C1 C2]. apply lt_IZR in C1. apply le_IZR in C2. apply D. apply Exists_exists. exists e. split; [exact He|].
          assert (Ve : vertical_edge e = true) by (apply vertical_edge_iff; lia). split; [exact Ve|].
          assert (LY : py (s_low e) <= y).
          { apply (in_parts dn (f :: rest) e PL) in He as [K|K]; apply in_map_iff in K as [g [<- K]]; [apply (p_dn _ _ _ _ _ P) in K; lia|]. rewrite <- R in K. apply NR in K. lia. }
          destruct (Z.eq_dec (py (s_low e)) y) as [Q|Q]; [|exfalso; apply (vertex_inside X y e VX He Ve A); lia].
          destruct (Z.eq_dec (py (s_high e)) (py (s_low (fst f)))) as [Q2|Q2]; [|exfalso; apply (vertex_inside X _ e VF He Ve A C1); lia].
          split; [rewrite (pt_eta (s_high e)), B, Q2|rewrite (pt_eta (s_low e)), A, Q]; reflexivity.
      - rewrite <- VA in *. destruct EA as [e [EA [He [Ve [Le HH]]]]]; [rewrite VA; discriminate|]. destruct (p_va _ _ _ _ _ P) as [_ G]. rewrite G.
        rewrite (vsum_own dn (h_rest s) X y k e); try assumption; [|rewrite R; exact PL]. pose proof (vert_own l nod ord k e He Ve) as VO. rewrite HH, Le in VO. cbn [px py] in VO. symmetry. exact VO. }
    unfold h_swap. apply (next_ok X y); try assumption.
    - intros NV. destruct (EA NV) as [e [K1 [K2 [K3 [_ K4]]]]]. exists e. auto.
    - intros e He Ve Le LE k. destruct (h_va s) as [|v0 vs] eqn:VA.
      + rewrite <- (vsum_own dn (h_rest s) X y k e); try assumption; [|rewrite R; exact PL]. destruct (p_va _ _ _ _ _ P) as [_ G]. rewrite <- G, VA. reflexivity.
      + exfalso. destruct EA as [g [EA [Hg [Vg [Lg HH]]]]]; [discriminate|]. assert (e = g) as ->; [|rewrite HH in LE; cbn [py] in LE; lia].
        destruct (vertical_lt e He Ve) as [_ FY]. destruct (vertical_lt g Hg Vg) as [_ GY]. apply (overlap g e Hg He Vg Ve); [congruence| |]; rewrite ?Lg, ?Le in *; cbn [py] in *; assumption.
  Qed.

  (* ---------- the loop ---------- *)
  Record column_end (X : Z) (s : hstate) : Prop := mk_ce {
    c_l : exists dn, l = dn ++ h_rest s /\ forall f, In f dn -> px (s_low (fst f)) <= X;
    c_rest : forall f, In f (h_rest s) -> X < px (s_low (fst f));
    c_out : out_ok (fun e => px (s_low e) <= X) (h_out s);
    c_set : (forall a, In a (h_set s) -> fine l a /\ px (s_low (fst a)) = X) /\ forall e, In e (map fst (h_set s)) <-> In e E /\ nv e /\ px (s_low e) = X }.
  Lemma end_ok X y d dn s : vertex X y -> post X y d dn s -> col_end X (h_rest s) = true -> h_va s = [] -> column_end X s.
  Proof.
    intros VX P CE VA. pose proof (p_l _ _ _ _ _ P) as PL.
    assert (NR : forall f, In f (h_rest s) -> X < px (s_low (fst f))).
    { intros f F. pose proof (p_rest _ _ _ _ _ P f F) as K. destruct (h_rest s) as [|g r] eqn:R; [destruct F|]. unfold col_end in CE. rewrite negb_true_iff in CE. apply Z.eqb_neq in CE.
      pose proof (p_rest _ _ _ _ _ P g) as KG. rewrite R in KG. specialize (KG (or_introl eq_refl)). destruct F as [<-|F]; [lia|].
      pose proof (sorted_rest dn g r PL f F) as S. destruct S as [S|[S|[S _]]]; [lia|lia|rewrite <- S; lia]. }
    assert (IE : forall e, In e E -> px (s_low e) <= X -> px (s_low e) < X \/ px (s_low e) = X /\ py (s_low e) <= y).
    { intros e He K. apply (in_parts dn (h_rest s) e PL) in He as [He|He]; apply in_map_iff in He as [f [<- F]]; [apply (p_dn _ _ _ _ _ P f F)|]. apply NR in F. lia. }
    constructor.
    - exists dn. split; [exact PL|]. intros f F. apply (p_dn _ _ _ _ _ P) in F. lia.
    - exact NR.
    - apply (out_more (done_le X y)); [exact (p_out _ _ _ _ _ P)| |].
      + intros e He. unfold done_le. lia.
      + intros e He K. destruct (IE e He K) as [K1|[K1 K2]]; [left; left; exact K1|]. unfold done_le. destruct (vertical_edge e) eqn:V; [|left; right; auto].
        destruct (Z_le_gt_dec (py (s_high e)) y) as [Q|Q]; [left; right; auto|right]. intros k. unfold lside, rside. rewrite V, (green l ord clo), (vert_own l nod ord k e He V).
        destruct (Z.eq_dec (py (s_low e)) y) as [Q2|Q2]; [|exfalso; apply (vertex_inside X y e VX He V K1); lia].
        assert (Le : s_low e = mk_pt X y) by (rewrite (pt_eta (s_low e)), K1, Q2; reflexivity).
        rewrite <- (vsum_own dn (h_rest s) X y k e PL); try assumption.
        * destruct (p_va _ _ _ _ _ P) as [_ G]. rewrite <- G, VA. cbn [get]. lia.
        * intros f F K3. apply NR in F. rewrite K3 in F. cbn [px] in F. lia.
    - destruct (p_set _ _ _ _ _ P) as [S1 S2]. split.
      + intros a A. split; [apply S1, A|]. assert (In (fst a) (map fst (h_set s))) as K by (apply in_map, A). apply S2 in K. tauto.
      + intros e. rewrite S2. split; [tauto|]. intros [K1 [K2 K3]]. split; [exact K1|]. split; [exact K2|]. split; [exact K3|]. destruct (IE e K1 ltac:(lia)); lia.
  Qed.
  Lemma loop_ok X d : good l d -> has l d (left_at X) -> forall fuel y dn s, vertex X y -> mid X y d dn s -> h_yy s = y -> h_first s = false ->
    (2 * length (h_rest s) + (match h_va s with [] => 0 | _ => 1 end) < fuel)%nat ->
    exists s', h_loop fuel X d s = Ok s' /\ column_end X s'.
  Proof.
    intros G Hd. induction fuel as [|fuel IH]; intros y dn s VX M YY FF FU; [lia|]. cbn [h_loop].
    destruct (h_stop X s) eqn:ST.
    - assert (NR : forall f, In f (h_rest s) -> s_low (fst f) <> mk_pt X y).
      { unfold h_stop in ST. destruct (h_rest s) as [|g r] eqn:R; [intros f []|]. rewrite FF, YY in ST. cbn [negb andb] in ST.
        assert (NG : s_low (fst g) <> mk_pt X y). { intros K. rewrite K in ST. cbn [px py] in ST. rewrite !Z.eqb_refl in ST. discriminate. }
        intros f [<-|F]; [exact NG|]. intros K. pose proof (m_l _ _ _ _ _ M) as ML. rewrite R in ML. pose proof (sorted_rest dn g r ML f F) as S.
        pose proof (m_rest _ _ _ _ _ M g) as KG. rewrite R in KG. specialize (KG (or_introl eq_refl)). unfold ev_le in S. rewrite K in S. cbn [px py] in S.
        destruct S as [S|[S|[S _]]]; [lia|lia|]. contradiction. }
      destruct (flush_ok X y d dn s G Hd VX M YY NR) as [s1 [-> [P [R1 [V1 F1]]]]]. cbn [obind].
      destruct (col_end X (h_rest s1)) eqn:CE.
      + destruct (h_va s1) as [|v0 vs] eqn:VA; [exists s1; split; [reflexivity|apply (end_ok X y d dn); assumption]|].
        assert (NV : h_va s1 <> []) by (rewrite VA; discriminate). destruct (p_ea _ _ _ _ _ P NV) as [e [EA _]]. rewrite EA.
        destruct (jump_ok X y d dn s1 e (py (s_high e)) (h_first s1) VX P NV EA) as [M' V'].
        { intros f F. left. unfold col_end in CE. destruct (h_rest s1) as [|g r] eqn:R; [destruct F|]. rewrite negb_true_iff in CE. apply Z.eqb_neq in CE.
          pose proof (p_rest _ _ _ _ _ P g) as KG. rewrite R in KG. specialize (KG (or_introl eq_refl)). destruct F as [<-|F]; [lia|].
          pose proof (p_l _ _ _ _ _ P) as PL. rewrite R in PL. pose proof (sorted_rest dn g r PL f F) as S. destruct S as [S|[S|[S _]]]; [lia|lia|rewrite <- S; lia]. }
        apply (IH (py (s_high e)) dn); [exact V'|exact M'|reflexivity| |].
        * cbn [h_at h_swap h_first]. rewrite F1. exact FF.
        * cbn [h_at h_swap h_rest h_va]. rewrite R1. rewrite <- V1 in FU. lia.
      + unfold col_end in CE. destruct (h_rest s1) as [|f r] eqn:R; [discriminate|]. rewrite negb_false_iff in CE. apply Z.eqb_eq in CE.
        assert (NRS : forall g, In g (h_rest s1) -> X < px (s_low (fst g)) \/ px (s_low (fst g)) = X /\ py (s_low (fst f)) <= py (s_low (fst g))).
        { intros g GI. rewrite R in GI. pose proof (p_l _ _ _ _ _ P) as PL. rewrite R in PL. destruct GI as [<-|GI]; [lia|]. pose proof (sorted_rest dn f r PL g GI) as S. destruct S as [S|[S|[S _]]]; [lia|lia|rewrite <- S; lia]. }
        assert (LW : s_low (fst f) = mk_pt X (py (s_low (fst f)))) by (rewrite (pt_eta (s_low (fst f))) at 1; rewrite CE; reflexivity).
        assert (VF : vertex X (py (s_low (fst f)))).
        { exists (fst f). split; [|left; exact LW]. apply (in_parts dn (h_rest s1) _ (p_l _ _ _ _ _ P)). right. rewrite R. left. reflexivity. }
        assert (GO : (forall e, h_va s1 <> [] -> h_ea s1 = Some e -> py (s_low (fst f)) <= py (s_high e)) ->
          exists s', (try s2 <- h_read (h_swap s1); h_loop fuel X d s2) = Ok s' /\ column_end X s').
        { intros HE. pose proof (step_ok X y d dn s1 f r VX P R CE HE) as M'.
          destruct (read_ok X _ d dn (h_swap s1) f r M' R LW) as [s' [-> [M2 [Y2 [F2 R2]]]]]. cbn [obind]. apply (IH (py (s_low (fst f))) (dn ++ [f])); try assumption. rewrite R2. rewrite <- R1 in FU. cbn [length] in FU. destruct (h_va s'); lia. }
        destruct (h_va s1) as [|v0 vs] eqn:VA; [apply GO; intros e K; exfalso; apply K; reflexivity|].
        assert (NV : h_va s1 <> []) by (rewrite VA; discriminate). destruct (p_ea _ _ _ _ _ P NV) as [e [EA _]].
        destruct (Z.ltb_spec (py (s_high e)) (py (s_low (fst f)))) as [Q|Q].
        * unfold h_read. cbn [h_swap h_rest h_vb h_eb h_va h_ea h_ins h_cur h_out h_set]. rewrite R. destruct f as [he [k c]] eqn:FE. cbn [fst] in *. rewrite VA, EA. rewrite (proj2 (Z.ltb_lt _ _) Q). cbn [obind].
          destruct (jump_ok X y d dn s1 e (py (s_high e)) false VX P NV EA) as [M' V']; [intros g GI; apply NRS in GI; lia|].
          rewrite VA, EA, R in M'. apply (IH (py (s_high e)) dn); [exact V'|exact M'|reflexivity|reflexivity|]. cbn [h_rest h_va]. rewrite <- R1, <- V1 in FU. lia.
        * apply GO. intros e' _ EA'. assert (e' = e) as -> by congruence. exact Q.
    - unfold h_stop in ST. destruct (h_rest s) as [|f r] eqn:R; [discriminate|]. rewrite FF, YY in ST. cbn [negb andb] in ST. apply orb_false_iff in ST as [ST1 ST2]. rewrite negb_false_iff in ST1, ST2. apply Z.eqb_eq in ST1. apply Z.eqb_eq in ST2.
      assert (LW : s_low (fst f) = mk_pt X y) by (rewrite (pt_eta (s_low (fst f))), ST1, ST2; reflexivity).
      destruct (read_ok X y d dn s f r M R LW) as [s' [-> [M' [Y' [F' R']]]]]. cbn [obind]. apply (IH y (dn ++ [f])); try assumption. rewrite R'. cbn [length] in FU. destruct (h_va s'); lia.
  Qed.

  Lemma column_ok X d dn f rest out : good l d -> has l d (left_at X) -> l = dn ++ f :: rest -> (forall g, In g dn -> px (s_low (fst g)) < X) -> px (s_low (fst f)) = X ->
    out_ok (fun e => px (s_low e) < X) out ->
    exists s, handle_input_events X d (f :: rest) out = Ok (h_rest s, h_out s, h_set s) /\ column_end X s.
  Proof.
    intros G Hd HL DN FX O. set (y := py (s_low (fst f))).
    assert (LW : s_low (fst f) = mk_pt X y) by (rewrite (pt_eta (s_low (fst f))), FX; reflexivity).
    assert (Hf : In (fst f) E) by (apply (in_parts dn (f :: rest) _ HL); right; left; reflexivity).
    assert (VF : vertex X y) by (exists (fst f); auto).
    assert (NR : forall g, In g (f :: rest) -> X < px (s_low (fst g)) \/ px (s_low (fst g)) = X /\ y <= py (s_low (fst g))).
    { intros g [<-|GI]; [unfold y; lia|]. pose proof (sorted_rest dn f rest HL g GI) as S. unfold y. destruct S as [S|[S|[S _]]]; [lia|lia|rewrite <- S; lia]. }
    assert (ND : forall g, In g dn -> s_low (fst g) <> mk_pt X y) by (intros g GI K; apply DN in GI; rewrite K in GI; cbn [px] in GI; lia).
    assert (ALL : forall e, In e E -> px (s_low e) < X \/ X < px (s_low e) \/ px (s_low e) = X /\ y <= py (s_low e)).
    { intros e He. apply (in_parts dn (f :: rest) e HL) in He as [He|He]; apply in_map_iff in He as [g [<- GI]]; [left; apply DN, GI|right; apply NR, GI]. }
    set (s0 := mk_h [] [] None None [] 0 INT_MIN true (f :: rest) out []).
    assert (M : mid X y d dn s0).
    { constructor; unfold s0; cbn [h_rest h_va h_vb h_ea h_eb h_ins h_cur h_out h_set]; try assumption.
      - intros g GI. apply DN in GI. lia.
      - split; [apply wf_nil|]. intros k. rewrite vsum_none by exact ND. reflexivity.
      - intros K. exfalso. apply K. reflexivity.
      - split; [apply wf_nil|]. intros k. cbn [get]. symmetry. apply (vert_none l). intros e He A B [C1 C2]. apply lt_IZR in C1. destruct (ALL e He) as [K|[K|K]]; lia.
      - intros K. exfalso. apply K. reflexivity.
      - apply new_none, ND.
      - split; [lia|]. intros K a A. destruct d; [destruct A|discriminate].
      - apply (out_ext _ _ _ O). intros e He. unfold done_lt. destruct (vertical_edge e) eqn:V; [|destruct (ALL e He); lia]. destruct (vertical_lt e He V) as [_ VY]. destruct (ALL e He); lia.
      - split; [intros a []|]. intros e. cbn [map In]. split; [intros []|]. intros [He [_ K]]. destruct (ALL e He); lia. }
    destruct (read_ok X y d dn s0 f rest M eq_refl LW) as [s' [H1 [M2 [Y2 [F2 R2]]]]].
    unfold handle_input_events. fold s0. assert (L0 : exists s, h_loop (2 * length (f :: rest) + 2) X d s0 = Ok s /\ column_end X s).
    { replace (2 * length (f :: rest) + 2)%nat with (S (2 * length (f :: rest) + 1)) by lia. cbn [h_loop]. replace (h_stop X s0) with false by reflexivity. rewrite H1. cbn [obind].
      apply (loop_ok X d G Hd _ y (dn ++ [f])); try assumption. rewrite R2. cbn [length]. destruct (h_va s'); lia. }
    destruct L0 as [s [-> CE]]. cbn [obind]. exists s. split; [reflexivity|exact CE].
  Qed.
End column.
