(* processVertex: one vertex of the property merge scan line. *)
From Coq Require Import Permutation.
From Verif Require Import Base Scan90Spec BoolOpModel VertexLemmas ScanMap ScanProcess Set90Spec Set90Model
  PropMergeSpec PropMergeModel PropMergeMap.

Ltac conj := repeat match goal with |- _ /\ _ => split end.

(* the value of the scan line at height y *)
Definition sv (m : smap pmap) (y : Z) : pmap := mval [] m y.
Definition eqS (a S : list Z) : Z := b2z (set_eqb a S).

(* net effect of a list of edges at height y on the region of S *)
Definition at_iv (lo hi y : Z) : Z := b2z (lo <=? y) - b2z (hi <=? y).
Definition econ1 (e : pedge) (S : list Z) (y : Z) : Z :=
  at_iv (pe_lo e) (pe_hi e) y * (eqS (pe_right e) S - eqS (pe_left e) S).
Fixpoint econ (out : list pedge) (S : list Z) (y : Z) : Z :=
  match out with [] => 0 | e :: out' => econ1 e S y + econ out' S y end.

Lemma push_edge_econ e out S y : econ (push_edge e out) S y = econ (e :: out) S y.
Proof.
  unfold push_edge. destruct (set_eqb (pe_left e) (pe_right e)) eqn:E.
  - apply set_eqb_spec in E. cbn [econ]. unfold econ1. rewrite E. lia.
  - destruct out as [|e' out]; [reflexivity|].
    destruct ((pe_hi e' =? pe_lo e) && set_eqb (pe_left e') (pe_left e) && set_eqb (pe_right e') (pe_right e)) eqn:G; [|reflexivity].
    apply andb_prop in G. destruct G as [G G3]. apply andb_prop in G. destruct G as [G1 G2].
    apply Z.eqb_eq in G1. apply set_eqb_spec in G2. apply set_eqb_spec in G3.
    cbn [econ]. unfold econ1. cbn [pe_lo pe_hi pe_left pe_right]. rewrite <- G2, <- G3, <- G1. unfold at_iv. ring.
Qed.
Lemma econ_app a b S y : econ (a ++ b) S y = econ a S y + econ b S y.
Proof. induction a as [|e a IH]; cbn [app econ]; [reflexivity|]. rewrite IH. lia. Qed.
Lemma econ_rev a S y : econ (rev a) S y = econ a S y.
Proof. induction a as [|e a IH]; cbn [rev econ]; [reflexivity|]. rewrite econ_app, IH. cbn [econ]. lia. Qed.
Lemma at_iv_in lo hi y : lo <= hi -> at_iv lo hi y = if (lo <=? y) && (y <? hi) then 1 else 0.
Proof.
  intros H. unfold at_iv, b2z. destruct (Z.leb_spec lo y), (Z.leb_spec hi y), (Z.ltb_spec y hi); cbn [andb]; lia.
Qed.

Section Step.
Variable P : Z -> Prop.

(* facts about edges that gluing preserves *)
Definition edges_ok (R : Z -> list Z -> list Z -> Prop) (out : list pedge) : Prop :=
  Forall (fun e => P (pe_hi e) /\ R (pe_lo e) (pe_left e) (pe_right e)) out.
Lemma push_edge_ok R e out : edges_ok R out -> P (pe_hi e) -> R (pe_lo e) (pe_left e) (pe_right e) ->
  edges_ok R (push_edge e out).
Proof.
  intros H H1 H2. unfold push_edge. destruct (set_eqb (pe_left e) (pe_right e)); [exact H|].
  destruct out as [|e' out]; [constructor; [split; assumption|constructor]|].
  destruct (_ && _); [|constructor; [split; assumption|exact H]].
  inversion H as [|x l [H3 H4] H5]; subst. constructor; [|exact H5]. cbn [pe_hi pe_lo pe_left pe_right]. split; assumption.
Qed.

Definition vals_ok (m : smap pmap) : Prop := Forall (fun kv => ksorted (snd kv) /\ P (fst kv)) m.
Definition good (m : smap pmap) : Prop := ksorted m /\ vals_ok m /\ lastval [] m = [].

Lemma vals_ok_app a b : vals_ok (a ++ b) <-> vals_ok a /\ vals_ok b.
Proof. apply Forall_app. Qed.
Lemma vals_ok_cons k v b : vals_ok ((k, v) :: b) <-> (ksorted v /\ P k) /\ vals_ok b.
Proof. unfold vals_ok. split; [intros H; inversion H; subst; split; assumption|]. intros [H1 H2]. constructor; assumption. Qed.
Lemma vals_last d m : ksorted d -> vals_ok m -> ksorted (lastval d m).
Proof.
  revert d. induction m as [|[k v] m IH]; intros d Hd H; cbn [lastval]; [exact Hd|]. apply vals_ok_cons in H. apply IH; apply H.
Qed.
Lemma ksorted_nil : @ksorted Z [].
Proof. constructor. Qed.
Lemma vals_sv d m y : ksorted d -> vals_ok m -> ksorted (mval d m y).
Proof.
  revert d. induction m as [|[k v] m IH]; intros d Hd H; cbn [mval]; [exact Hd|]. apply vals_ok_cons in H.
  destruct (k <=? y); [apply IH; apply H|exact Hd].
Qed.

(* the step function of a split map *)
Lemma sv_mid A k v C y : ksorted (A ++ (k, v) :: C) ->
  sv (A ++ (k, v) :: C) y = if k <=? y then mval v C y else sv A y.
Proof.
  intros H. destruct (sorted_mid k v A C H) as [H1 [H2 [H3 H4]]]. unfold sv. destruct (Z.leb_spec k y).
  - rewrite mval_above by (eapply klt_weaken; [|exact H1]; lia). cbn [mval]. destruct (Z.leb_spec k y); [reflexivity|lia].
  - apply mval_below. apply kge_cons. split; [lia|]. eapply kge_weaken; [|exact H2]. lia.
Qed.
Lemma sv_split A C k y : ksorted (A ++ C) -> klt k A -> kge k C ->
  sv (A ++ C) y = if k <=? y then mval (lastval [] A) C y else sv A y.
Proof.
  intros H H1 H2. unfold sv. destruct (Z.leb_spec k y).
  - apply mval_above. eapply klt_weaken; [|exact H1]. lia.
  - apply mval_below. eapply kge_weaken; [|exact H2]. lia.
Qed.

Lemma erase_redundant_spec A k v C : ksorted (A ++ (k, v) :: C) ->
  exists X, erase_redundant k (A ++ (k, v) :: C) = Some (A ++ X ++ C) /\
    (X = [(k, v)] \/ X = [] /\ v = lastval [] A).
Proof.
  intros H. destruct (sorted_mid k v A C H) as [H1 [H2 [H3 H4]]].
  unfold erase_redundant. rewrite m_deref_mid by exact H1. cbn [bind snd].
  destruct (snoc_cases A) as [->|[A' [a [w ->]]]].
  - cbn [app m_begin]. rewrite iter_eqb_refl. destruct v as [|v0 v].
    + exists []. cbn [m_erase]. rewrite Z.eqb_refl. cbn [app]. split; [reflexivity|]. right. split; reflexivity.
    + eexists [_]. cbn [app]. split; [reflexivity|]. left. reflexivity.
  - change (Some k) with (m_begin ((k, v) :: C)). rewrite begin_ne_nonempty by exact H. rewrite <- app_assoc in H |- *. cbn [app] in H |- *.
    rewrite decr_snoc by exact H.
    assert (L : klt a A').
    { apply ksorted_app in H. destruct H as [_ [_ H]]. apply Forall_forall. intros p Hp.
      exact (H p (a, w) Hp (or_introl eq_refl)). }
    cbn [bind snd]. rewrite m_deref_mid by exact L. cbn [bind snd]. destruct (pmap_eqb w v) eqn:E.
    + apply pmap_eqb_eq in E. subst w. exists []. split.
      * f_equal. change ((a, v) :: (k, v) :: C) with ([(a, v)] ++ (k, v) :: C).
        rewrite (app_assoc A' [(a, v)] ((k, v) :: C)). rewrite m_erase_mid by exact H1.
        rewrite <- !app_assoc. reflexivity.
      * right. split; [reflexivity|]. rewrite lastval_snoc. reflexivity.
    + exists [(k, v)]. split; [|left; reflexivity]. rewrite <- !app_assoc. reflexivity.
Qed.
Lemma drop_spec A k v X C : ksorted (A ++ (k, v) :: C) -> (X = [(k, v)] \/ X = [] /\ v = lastval [] A) ->
  ksorted (A ++ X ++ C) /\ (forall y, sv (A ++ X ++ C) y = sv (A ++ (k, v) :: C) y) /\
  lastval [] (A ++ X ++ C) = lastval [] (A ++ (k, v) :: C) /\
  (vals_ok (A ++ (k, v) :: C) -> vals_ok (A ++ X ++ C)).
Proof.
  intros H [-> | [-> Hv]]; [cbn [app]; tauto|]. cbn [app].
  destruct (sorted_mid k v A C H) as [H1 [H2 [H3 H4]]].
  assert (H5 : ksorted (A ++ C)) by (apply (ksorted_glue k); [exact H3|exact H4|exact H1|eapply kge_weaken; [|exact H2]; lia]).
  conj; [exact H5| | |].
  - intros y. rewrite sv_mid by exact H. rewrite (sv_split A C k y H5 H1) by (eapply kge_weaken; [|exact H2]; lia).
    rewrite Hv. reflexivity.
  - rewrite !lastval_app. cbn [lastval]. rewrite <- Hv. reflexivity.
  - rewrite !vals_ok_app, vals_ok_cons. tauto.
Qed.

Lemma begin_some (C : smap pmap) k v C' : C = (k, v) :: C' -> m_begin C = Some k.
Proof. intros ->. reflexivity. Qed.

(* ---------- the loop ---------- *)
Variable below : pmap.
Hypothesis Hbelow : ksorted below.

(* the effect of adding [below] to the interval [lo, hi) *)
Definition upd_iv (lo hi : Z) (m m' : smap pmap) : Prop :=
  forall y, sv m' y = if (lo <=? y) && (y <? hi) then mergeCount (sv m y) below else sv m y.
Definition rest_ok (lo hi : Z) (m : smap pmap) (out out' : list pedge) : Prop :=
  (forall S y, econ out' S y = econ out S y +
     if (lo <=? y) && (y <? hi) then eqS (setProperty (mergeCount (sv m y) below)) S - eqS (setProperty (sv m y)) S else 0) /\
  (forall R, edges_ok R out ->
     (forall k, lo <= k < hi -> P k -> R k (setProperty (sv m k)) (setProperty (mergeCount (sv m k) below))) ->
     edges_ok R out').

Lemma rest_trans lo mid hi m m' out out' out'' : lo <= mid <= hi -> upd_iv lo mid m m' ->
  rest_ok lo mid m out out' -> rest_ok mid hi m' out' out'' -> rest_ok lo hi m out out''.
Proof.
  intros Hm HU [H1 H2] [H3 H4]. split.
  - intros S y. rewrite H3, H1, HU.
    destruct (Z.leb_spec lo y), (Z.ltb_spec y mid), (Z.leb_spec mid y), (Z.ltb_spec y hi); cbn [andb]; lia.
  - intros R HR Hk. apply H4; [apply H2; [exact HR|]|].
    + intros k Hk' Pk. apply Hk; [lia|exact Pk].
    + intros k Hk' Pk. specialize (Hk k ltac:(lia) Pk). rewrite HU.
      destruct (Z.leb_spec lo k), (Z.ltb_spec k mid); try lia; exact Hk.
Qed.
Lemma upd_trans lo mid hi m m' m'' : lo <= mid <= hi -> upd_iv lo mid m m' -> upd_iv mid hi m' m'' -> upd_iv lo hi m m''.
Proof.
  intros Hm H1 H2 y. rewrite H2, H1.
  destruct (Z.leb_spec lo y), (Z.ltb_spec y mid), (Z.leb_spec mid y), (Z.ltb_spec y hi); cbn [andb]; (lia || reflexivity).
Qed.
Lemma upd_refl lo m : upd_iv lo lo m m.
Proof. intros y. destruct (Z.leb_spec lo y), (Z.ltb_spec y lo); cbn [andb]; (lia || reflexivity). Qed.
Lemma rest_refl lo m out : rest_ok lo lo m out out.
Proof.
  split; [|intros R H _; exact H]. intros S y. destruct (Z.leb_spec lo y), (Z.ltb_spec y lo); cbn [andb]; lia.
Qed.
Lemma upd_ext lo hi m m1 m' : (forall y, sv m y = sv m1 y) -> upd_iv lo hi m1 m' -> upd_iv lo hi m m'.
Proof. intros H HU y. rewrite HU, H. reflexivity. Qed.
Lemma rest_ext lo hi m m1 out out' : (forall y, sv m y = sv m1 y) -> rest_ok lo hi m1 out out' -> rest_ok lo hi m out out'.
Proof.
  intros H [H1 H2]. split; [intros S y; rewrite H1, H; reflexivity|]. intros R HR Hk. apply H2; [exact HR|].
  intros k Hk' Pk. rewrite <- H. apply Hk; assumption.
Qed.

(* the part of a pass that moves from kp to e *)
Lemma move_spec A kp vp e ve C out : good (A ++ (kp, vp) :: (e, ve) :: C) ->
  exists X m2, m_deref (Some kp) (A ++ (kp, vp) :: (e, ve) :: C) = Some (kp, vp) /\
    m2 = (A ++ X) ++ (e, ve) :: C /\
    erase_redundant kp (m_set kp (mergeCount vp below) (A ++ (kp, vp) :: (e, ve) :: C)) = Some m2 /\
    good m2 /\ kp < e /\ upd_iv kp e (A ++ (kp, vp) :: (e, ve) :: C) m2 /\
    m_incr (Some e) m2 = Some (m_begin C) /\ (length (A ++ X) <= S (length A))%nat /\
    rest_ok kp e (A ++ (kp, vp) :: (e, ve) :: C) out
      (push_edge (mk_pe kp e (setProperty vp) (setProperty (mergeCount vp below))) out).
Proof.
  intros [G1 [G2 G3]]. destruct (sorted_mid kp vp A ((e, ve) :: C) G1) as [H1 [H2 [H3 H4]]].
  set (w := mergeCount vp below).
  assert (S1 : ksorted (A ++ (kp, w) :: (e, ve) :: C)).
  { apply ksorted_app in G1. destruct G1 as [K1 [K2 K3]]. apply ksorted_app. split; [exact K1|]. split.
    - apply ksorted_cons in K2. apply ksorted_cons. exact K2.
    - intros a b Ha Hb. destruct Hb as [<-|Hb]; [exact (K3 a (kp, vp) Ha (or_introl eq_refl))|apply K3; [exact Ha|right; exact Hb]]. }
  destruct (erase_redundant_spec A kp w ((e, ve) :: C) S1) as [X [E1 HX]].
  destruct (drop_spec A kp w X ((e, ve) :: C) S1 HX) as [D1 [D2 [D3 D4]]].
  apply vals_ok_app in G2. destruct G2 as [G2 G2']. apply vals_ok_cons in G2'. destruct G2' as [[G4 G5] G6].
  assert (Hlt : kp < e) by (apply kge_cons in H2; lia).
  assert (Hup : upd_iv kp e (A ++ (kp, vp) :: (e, ve) :: C) (A ++ X ++ (e, ve) :: C)).
  { intros y. rewrite D2, (sv_mid A kp w), (sv_mid A kp vp) by assumption. cbn [mval].
    destruct (Z.leb_spec kp y), (Z.leb_spec e y), (Z.ltb_spec y e); cbn [andb]; (lia || reflexivity). }
  exists X, ((A ++ X) ++ (e, ve) :: C). rewrite <- app_assoc. conj.
  - apply m_deref_mid. exact H1.
  - reflexivity.
  - rewrite m_set_mid by exact H1. exact E1.
  - split; [exact D1|]. split.
    + apply D4. apply vals_ok_app. split; [exact G2|]. apply vals_ok_cons. split; [|exact G6]. split; [|exact G5].
      apply mergeCount_sorted; assumption.
    + rewrite D3. rewrite lastval_app in *. cbn [lastval] in *. exact G3.
  - exact Hlt.
  - exact Hup.
  - rewrite app_assoc. rewrite app_assoc in D1. apply sorted_mid in D1. destruct D1 as [D1 _]. cbn [m_incr]. apply m_next_mid. exact D1.
  - rewrite app_length. destruct HX as [-> | [-> _]]; cbn [length]; lia.
  - assert (Hv : forall y, kp <= y < e -> sv (A ++ (kp, vp) :: (e, ve) :: C) y = vp).
    { intros y Hy. rewrite sv_mid by exact G1. cbn [mval]. destruct (Z.leb_spec kp y), (Z.leb_spec e y); (lia || reflexivity). }
    split.
    + intros S y. rewrite push_edge_econ. cbn [econ]. unfold econ1. cbn [pe_lo pe_hi pe_left pe_right].
      rewrite at_iv_in by lia. destruct (Z.leb_spec kp y), (Z.ltb_spec y e); cbn [andb]; try lia.
      rewrite Hv by lia. fold w. lia.
    + intros R HR Hk. apply push_edge_ok; [exact HR| |]; cbn [pe_lo pe_hi pe_left pe_right].
      * apply vals_ok_cons in G6. apply G6.
      * specialize (Hk kp ltac:(lia) G5). rewrite Hv in Hk by lia. exact Hk.
Qed.

Definition at_key (m : smap pmap) (k : Z) (pos : iter) : Prop := exists A v C, m = A ++ (k, v) :: C /\ pos = m_begin C.
Definition loop_post (lo high : Z) (m : smap pmap) (out : list pedge) (r : smap pmap * list pedge * Z * iter * Z) : Prop :=
  let '(m', out', prev', pos', curY') := r in
  good m' /\ upd_iv lo high m m' /\ rest_ok lo high m out out' /\ at_key m' high pos' /\ prev' = high /\ curY' = high.

Lemma loop_exit A high v C out fuel : good (A ++ (high, v) :: C) -> (1 <= fuel)%nat ->
  exists r, pv_loop fuel high below (A ++ (high, v) :: C) out high (m_begin C) high = Some r /\
    loop_post high high (A ++ (high, v) :: C) out r.
Proof.
  intros HG Hf. destruct fuel as [|fuel]; [lia|].
  exists (A ++ (high, v) :: C, out, high, m_begin C, high). split.
  - cbn [pv_loop bind]. destruct C as [|[e ve] C]; cbn [m_begin]; [reflexivity|].
    destruct HG as [G1 _]. destruct (sorted_mid high v A _ G1) as [H1 [H2 _]].
    assert (E : m_deref (Some e) (A ++ (high, v) :: (e, ve) :: C) = Some (e, ve)).
    { change (A ++ (high, v) :: (e, ve) :: C) with (A ++ [(high, v)] ++ (e, ve) :: C). rewrite app_assoc. apply m_deref_mid.
      apply kge_cons in H2. apply klt_app. split; [eapply klt_weaken; [|exact H1]; lia|]. apply klt_cons. split; [lia|constructor]. }
    rewrite E. cbn [bind fst]. apply kge_cons in H2. destruct (Z.leb_spec e high); [lia|]. rewrite Z.ltb_irrefl. reflexivity.
  - unfold loop_post. conj; [exact HG|apply upd_refl|apply rest_refl| |reflexivity|reflexivity].
    exists A, v, C. split; reflexivity.
Qed.

Lemma deref_next (A C : smap pmap) kp vp e ve : ksorted (A ++ (kp, vp) :: (e, ve) :: C) ->
  m_deref (Some e) (A ++ (kp, vp) :: (e, ve) :: C) = Some (e, ve).
Proof.
  intros H. change (A ++ (kp, vp) :: (e, ve) :: C) with (A ++ [(kp, vp)] ++ (e, ve) :: C) in *. rewrite app_assoc in *.
  apply m_deref_mid. apply sorted_mid in H. apply H.
Qed.

Lemma post_trans lo mid high m m1 out out1 r : lo <= mid <= high -> upd_iv lo mid m m1 -> rest_ok lo mid m out out1 ->
  loop_post mid high m1 out1 r -> loop_post lo high m out r.
Proof.
  intros Hm HU HR. destruct r as [[[[m' out'] prev'] pos'] curY']. unfold loop_post. intros [H1 [H2 [H3 [H4 [H5 H6]]]]].
  conj; try assumption; [eapply upd_trans; eassumption|eapply rest_trans; eassumption].
Qed.
Lemma post_ext lo high m m1 out r : (forall y, sv m y = sv m1 y) -> loop_post lo high m1 out r -> loop_post lo high m out r.
Proof.
  intros Hm. destruct r as [[[[m' out'] prev'] pos'] curY']. unfold loop_post. intros [H1 [H2 [H3 [H4 [H5 H6]]]]].
  conj; try assumption; [eapply upd_ext; eassumption|eapply rest_ext; eassumption].
Qed.

(* the next element is the upper end *)
Lemma loop_arrive A kp vp high vh C out fuel : good (A ++ (kp, vp) :: (high, vh) :: C) -> (2 <= fuel)%nat ->
  exists r, pv_loop fuel high below (A ++ (kp, vp) :: (high, vh) :: C) out kp (Some high) kp = Some r /\
    loop_post kp high (A ++ (kp, vp) :: (high, vh) :: C) out r.
Proof.
  intros HG Hf. destruct fuel as [|fuel]; [lia|].
  destruct (move_spec A kp vp high vh C out HG) as [X [m2 [E1 [Em [E2 [G2 [Hlt [HU [E3 [_ HR]]]]]]]]]].
  rewrite Em in G2. destruct (loop_exit (A ++ X) high vh C
    (push_edge (mk_pe kp high (setProperty vp) (setProperty (mergeCount vp below))) out) fuel G2 ltac:(lia)) as [r [E4 Hr]].
  exists r. split.
  - cbn [pv_loop bind]. rewrite (deref_next A C kp vp high vh (proj1 HG)). cbn [bind fst]. rewrite Z.leb_refl.
    rewrite E1. cbn [bind snd]. rewrite E2. cbn [bind]. rewrite E3. cbn [bind]. rewrite <- Em in E4.
    destruct C as [|[e ve] C]; cbn [m_begin] in *; [rewrite Z.ltb_irrefl|]; exact E4.
  - rewrite <- Em in Hr. eapply post_trans; [|exact HU|exact HR|exact Hr]. lia.
Qed.

Lemma loop_spec high : P high -> forall C A kp vp out fuel, good (A ++ (kp, vp) :: C) -> C <> [] -> kp < high ->
  (length C + 2 <= fuel)%nat ->
  exists r, pv_loop fuel high below (A ++ (kp, vp) :: C) out kp (m_begin C) kp = Some r /\
    loop_post kp high (A ++ (kp, vp) :: C) out r.
Proof.
  intros Ph. induction C as [|[e ve] C IH]; intros A kp vp out fuel HG Hne Hk Hf; [contradiction Hne; reflexivity|].
  cbn [length] in Hf. cbn [m_begin].
  destruct (Z.lt_trichotomy e high) as [He|[He|He]].
  - (* the element is inside the interval *)
    destruct fuel as [|fuel]; [lia|].
    destruct (move_spec A kp vp e ve C out HG) as [X [m2 [E1 [Em [E2 [G2 [Hlt [HU [E3 [_ HR]]]]]]]]]].
    cbn [pv_loop bind]. rewrite (deref_next A C kp vp e ve (proj1 HG)). cbn [bind fst].
    destruct (Z.leb_spec e high); [|lia]. rewrite E1. cbn [bind snd]. rewrite E2. cbn [bind]. rewrite E3. cbn [bind].
    set (out1 := push_edge (mk_pe kp e (setProperty vp) (setProperty (mergeCount vp below))) out) in *.
    destruct C as [|[e2 ve2] C]; cbn [m_begin].
    + destruct (Z.ltb_spec e high); [|lia]. subst m2.
      destruct G2 as [K1 [K2 K3]].
      assert (Hve : ve = []) by (rewrite lastval_app in K3; exact K3).
      assert (Ei : m_insert high [] ((A ++ X) ++ [(e, ve)]) = (A ++ X) ++ [(e, ve); (high, [])]).
      { replace ((A ++ X) ++ [(e, ve)]) with (((A ++ X) ++ [(e, ve)]) ++ []) by apply app_nil_r.
        rewrite m_insert_mid; [rewrite <- app_assoc; reflexivity| |constructor].
        apply sorted_mid in K1. destruct K1 as [K1 _]. apply klt_app. split; [eapply klt_weaken; [|exact K1]; lia|].
        apply klt_cons. split; [lia|constructor]. }
      rewrite Ei.
      assert (G3 : good ((A ++ X) ++ [(e, ve); (high, [])])).
      { split; [|split].
        - change ((A ++ X) ++ [(e, ve); (high, [])]) with ((A ++ X) ++ [(e, ve)] ++ [(high, [])]). rewrite app_assoc.
          apply (ksorted_glue high); [exact K1|apply ksorted_cons; split; constructor| |apply kge_cons; split; [lia|constructor]].
          apply sorted_mid in K1. destruct K1 as [K1 _]. apply klt_app. split; [eapply klt_weaken; [|exact K1]; lia|].
          apply klt_cons. split; [lia|constructor].
        - apply vals_ok_app in K2. apply vals_ok_app. split; [apply K2|]. destruct K2 as [_ K2]. apply vals_ok_cons in K2.
          apply vals_ok_cons. split; [apply K2|]. apply vals_ok_cons. split; [split; [constructor|exact Ph]|constructor].
        - rewrite lastval_app. reflexivity. }
      destruct (loop_arrive (A ++ X) e ve high [] [] out1 fuel G3 ltac:(lia)) as [r [E4 Hr]].
      exists r. split; [exact E4|]. eapply post_trans; [|exact HU|exact HR|]; [lia|].
      eapply post_ext; [|exact Hr]. intros y. rewrite Hve in *. rewrite (sv_mid (A ++ X) e [] [] y K1), (sv_mid (A ++ X) e [] [(high, [])] y (proj1 G3)).
      cbn [mval]. destruct (e <=? y); [destruct (high <=? y)|]; reflexivity.
    + subst m2. destruct (IH (A ++ X) e ve out1 fuel G2 ltac:(discriminate) He ltac:(lia)) as [r [E4 Hr]].
      exists r. split; [exact E4|]. eapply post_trans; [|exact HU|exact HR|exact Hr]. lia.
  - subst e. apply loop_arrive; [exact HG|lia].
  - (* the element is above: split *)
    destruct fuel as [|fuel]; [lia|]. cbn [pv_loop bind]. rewrite (deref_next A C kp vp e ve (proj1 HG)). cbn [bind fst].
    destruct (Z.leb_spec e high); [lia|]. destruct (Z.ltb_spec kp high); [|lia].
    destruct HG as [K1 [K2 K3]]. destruct (sorted_mid kp vp A _ K1) as [H1 [H2 [H3 H4]]].
    rewrite m_deref_mid by exact H1. cbn [bind snd].
    assert (Hlt : klt high (A ++ [(kp, vp)])).
    { apply klt_app. split; [eapply klt_weaken; [|exact H1]; lia|]. apply klt_cons. split; [lia|constructor]. }
    assert (Hge : kge (high + 1) ((e, ve) :: C)).
    { apply ksorted_cons in H4. apply kge_cons. split; [lia|]. eapply kge_weaken; [|apply H4]. lia. }
    assert (Ei : m_insert high vp (A ++ (kp, vp) :: (e, ve) :: C) = A ++ (kp, vp) :: (high, vp) :: (e, ve) :: C).
    { change (A ++ (kp, vp) :: (e, ve) :: C) with (A ++ [(kp, vp)] ++ (e, ve) :: C). rewrite app_assoc.
      rewrite m_insert_mid by assumption. rewrite <- app_assoc. reflexivity. }
    rewrite Ei.
    assert (G3 : good (A ++ (kp, vp) :: (high, vp) :: (e, ve) :: C)).
    { split; [|split].
      - change (A ++ (kp, vp) :: (high, vp) :: (e, ve) :: C) with (A ++ [(kp, vp)] ++ (high, vp) :: (e, ve) :: C). rewrite app_assoc.
        apply (ksorted_glue high); [|apply ksorted_cons; split; [exact H4|exact Hge]|exact Hlt|apply kge_cons; split; [lia|eapply kge_weaken; [|exact Hge]; lia]].
        change (A ++ (kp, vp) :: (e, ve) :: C) with (A ++ [(kp, vp)] ++ (e, ve) :: C) in K1. rewrite app_assoc in K1. apply ksorted_app in K1. apply K1.
      - apply vals_ok_app in K2. apply vals_ok_app. split; [apply K2|]. destruct K2 as [_ K2]. apply vals_ok_cons in K2.
        apply vals_ok_cons. split; [apply K2|]. apply vals_ok_cons. split; [split; [apply K2|exact Ph]|apply K2].
      - rewrite lastval_app in *. cbn [lastval] in *. exact K3. }
    destruct (loop_arrive A kp vp high vp ((e, ve) :: C) out fuel G3 ltac:(lia)) as [r [E4 Hr]].
    exists r. split; [exact E4|]. eapply post_ext; [|exact Hr].
    intros y. rewrite !sv_mid by (exact K1 || apply G3). cbn [mval].
    destruct (Z.leb_spec kp y); [|reflexivity]. destruct (Z.leb_spec high y), (Z.leb_spec e y); (lia || reflexivity).
Qed.
End Step.
