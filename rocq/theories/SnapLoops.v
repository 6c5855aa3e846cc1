(* The loops of validate_scan: which points are collected. *)
From Verif Require Import Base Units Outcome Scan90Spec Poly90Spec Poly90Model Poly90Proofs.
From Verif Require Import Set90Spec Set90Model GeoSpec IvlModel IvlProofs RectModel RectProofs SegModel SegProofs PolySpec PolyModel PolyEdge ScanBaseModel ScanBaseOab.
From Verif Require Import SnapMove SnapNode SnapModel SnapChain ScanBaseProofs ScanBaseGrid ScanBaseCross.
From Coq Require Import Reals Lra Psatz Sorting.Sorted.
Local Open Scope Z_scope.

(* ---------- sorting ---------- *)
Section sort.
  Context {A : Type} (less : A -> A -> bool) (Q : A -> A -> Prop).
  Hypothesis less_Q : forall a b, less a b = true -> Q a b.
  Hypothesis more_Q : forall a b, less b a = false -> Q a b.
  Hypothesis Q_trans : forall a b c, Q a b -> Q b c -> Q a c.
  Lemma sort_insert_in a x l : In x (sort_insert less a l) <-> x = a \/ In x l.
  Proof.
    induction l as [|b l IH]; cbn [sort_insert]; [cbn; intuition|]. destruct (less b a); cbn [In]; [rewrite IH|]; intuition.
  Qed.
  Lemma sorted_in x l : In x (sorted less l) <-> In x l.
  Proof. induction l as [|a l IH]; [reflexivity|]. cbn [sorted fold_right]. fold (sorted less l). rewrite sort_insert_in, IH. cbn [In]. intuition. Qed.
  Lemma sort_insert_sorted a l : StronglySorted Q l -> StronglySorted Q (sort_insert less a l).
  Proof.
    induction l as [|b l IH]; intros S; cbn [sort_insert]; [constructor; constructor|]. apply StronglySorted_inv in S as [S F].
    destruct (less b a) eqn:E.
    - constructor; [apply IH; exact S|]. apply Forall_forall. intros x X. apply sort_insert_in in X. destruct X as [->|X]; [apply less_Q; exact E|]. rewrite Forall_forall in F. apply F. exact X.
    - assert (QA : Q a b) by (apply more_Q; exact E). constructor; [constructor; assumption|]. constructor; [exact QA|]. rewrite Forall_forall in *. intros x X. apply (Q_trans _ b); [exact QA|apply F; exact X].
  Qed.
  Lemma sorted_sorted l : StronglySorted Q (sorted less l).
  Proof. induction l as [|a l IH]; [constructor|]. apply sort_insert_sorted. exact IH. Qed.
End sort.
Lemma StronglySorted_imp {A : Type} (P Q : A -> A -> Prop) l : (forall a b, P a b -> Q a b) -> StronglySorted P l -> StronglySorted Q l.
Proof. intros I. induction 1 as [|a l S IH F]; constructor; [exact IH|]. apply Forall_forall. rewrite Forall_forall in F. auto. Qed.

Lemma unique_in p l : In p (unique_pts l) <-> In p l.
Proof.
  induction l as [|q l IH]; [reflexivity|]. cbn [unique_pts]. destruct (unique_pts l) as [|r t] eqn:E.
  - cbn [In] in *. rewrite IH. intuition.
  - destruct (pt_eqb q r) eqn:F.
    + apply pt_eqb_iff in F. subst r. cbn [In] in *. rewrite <- IH. intuition.
    + cbn [In] in *. rewrite <- IH. intuition.
Qed.
Definition x_le (p q : point) : Prop := px p <= px q.
Lemma unique_sorted l : StronglySorted x_le l -> StronglySorted x_le (unique_pts l).
Proof.
  induction l as [|q l IH]; intros S; [constructor|]. apply StronglySorted_inv in S as [S F]. specialize (IH S). cbn [unique_pts].
  destruct (unique_pts l) as [|r t] eqn:E; [constructor; constructor|]. destruct (pt_eqb q r); [exact IH|]. constructor; [exact IH|].
  rewrite Forall_forall in *. intros x X. apply F. apply unique_in. rewrite E. exact X.
Qed.
Lemma pts_sorted l : StronglySorted x_le (unique_pts (sorted pt_less l)).
Proof.
  apply unique_sorted. apply sorted_sorted; unfold x_le.
  - intros a b H. apply pt_less_iff in H. lia.
  - intros a b H. destruct (Z_lt_le_dec (px b) (px a)) as [L|L]; [|exact L]. assert (pt_less b a = true) by (apply pt_less_iff; lia). congruence.
  - intros a b c. lia.
Qed.

(* ---------- sets ---------- *)
Definition p_lt (p q : point) : Prop := pt_less p q = true.
Lemma set_insert_in p x l : In x (set_insert p l) <-> x = p \/ In x l.
Proof.
  induction l as [|q l IH]; cbn [set_insert]; [cbn; intuition|]. destruct (pt_less p q) eqn:E; [cbn [In]; intuition|].
  destruct (pt_less q p) eqn:F; cbn [In]; [rewrite IH; intuition|]. assert (p = q) by (apply pt_less_total; assumption). subst. intuition.
Qed.
Lemma set_insert_sorted p l : StronglySorted p_lt l -> StronglySorted p_lt (set_insert p l).
Proof.
  induction l as [|q l IH]; intros S; cbn [set_insert]; [constructor; constructor|]. pose proof S as S0. apply StronglySorted_inv in S as [S F].
  destruct (pt_less p q) eqn:E.
  - constructor; [exact S0|]. constructor; [exact E|]. rewrite Forall_forall in *. intros x X. apply (pt_less_trans _ q); [exact E|apply F; exact X].
  - destruct (pt_less q p) eqn:G; [|exact S0]. constructor; [apply IH; exact S|]. apply Forall_forall. intros x X. apply set_insert_in in X. destruct X as [->|X]; [exact G|]. rewrite Forall_forall in F. apply F. exact X.
Qed.
Definition grow (ips ips' : ptsets) : Prop := forall i p, In p (ips i) -> In p (ips' i).
Definition sets_sorted (ips : ptsets) : Prop := forall i, StronglySorted p_lt (ips i).
Lemma grow_refl ips : grow ips ips.
Proof. intros i p H. exact H. Qed.
Lemma grow_trans a b c : grow a b -> grow b c -> grow a c.
Proof. intros H K i p P. apply K, H, P. Qed.
Lemma add_in ips id p i q : In q (add_pt ips id p i) <-> In q (ips i) \/ (i = id /\ q = p).
Proof. unfold add_pt. destruct (Z.eqb_spec i id) as [E|E]; [rewrite set_insert_in; intuition|intuition]. Qed.
Lemma add_grow ips id p : grow ips (add_pt ips id p).
Proof. intros i q H. apply add_in. left. exact H. Qed.
Lemma add_sorted ips id p : sets_sorted ips -> sets_sorted (add_pt ips id p).
Proof. intros S i. unfold add_pt. destruct (i =? id); [apply set_insert_sorted|]; apply S. Qed.

(* ---------- the data ---------- *)
(* the ends of a half edge are in order *)
Definition ordered (s : seg) : Prop := pt_less (s_high s) (s_low s) = false.
Definition good (G : list entry) : Prop :=
  (forall s i, In (s, i) G -> seg_small s /\ ordered s) /\ (forall s t i, In (s, i) G -> In (t, i) G -> s = t).
(* an end of an edge, or the grid point of a point of two edges *)
Definition an_end (D : list entry) (p : point) : Prop := exists e, In e D /\ (p = s_low (fst e) \/ p = s_high (fst e)).
Definition origin (G : list entry) (p : point) : Prop :=
  an_end G p \/ exists e e' x y, In e G /\ In e' G /\ snd e <> snd e' /\ common (fst e) (fst e') x y /\ near (fst e) (fst e') p x y.
Definition sound (G : list entry) (ips : ptsets) : Prop := forall s i p, In (s, i) G -> In p (ips i) -> passes s p /\ origin G p.
(* the intersection of s and t is in both sets *)
Definition found (ips : ptsets) (s : seg) (i : Z) (t : seg) (j : Z) : Prop :=
  forall x y, cross s t <> 0 -> common s t x y -> ~ seg_end_r s x y -> ~ seg_end_r t x y ->
  exists p, In p (ips i) /\ In p (ips j) /\ near s t p x y.
Lemma found_grow ips ips' s i t j : grow ips ips' -> found ips s i t j -> found ips' s i t j.
Proof. intros G F x y N C E1 E2. destruct (F x y N C E1 E2) as [p [A [B P]]]. exists p. auto. Qed.
Lemma near_sym s t p x y : near s t p x y -> near t s p x y.
Proof. unfold near. tauto. Qed.
Lemma cross_sym s t : cross t s = - cross s t.
Proof. unfold cross. ring. Qed.
Lemma found_sym ips s i t j : found ips s i t j -> found ips t j s i.
Proof.
  intros F x y N C E1 E2. destruct (F x y) as [p [A [B P]]]; [rewrite cross_sym in N; lia|apply common_sym; exact C|exact E2|exact E1|]. exists p. split; [exact B|]. split; [exact A|]. apply near_sym. exact P.
Qed.
Lemma ordered_x s : ordered s -> px (s_low s) <= px (s_high s).
Proof. intros O. destruct (Z_lt_le_dec (px (s_high s)) (px (s_low s))) as [L|L]; [|exact L]. assert (pt_less (s_high s) (s_low s) = true) by (apply pt_less_iff; lia). unfold ordered in O. congruence. Qed.
(* an edge that starts at the end of another one or later *)
Lemma found_later ips s i t j : ordered s -> ordered t -> px (s_high s) <= px (s_low t) -> found ips s i t j.
Proof.
  intros OS OT L x y N [CS CT] ES ET. exfalso. apply ordered_x in OS, OT.
  destruct (inner_param s x y CS ES) as [a [A [X1 Y1]]]. destruct (inner_param t x y CT ET) as [b [B [X2 Y2]]]. unfold at_x in X1, X2.
  destruct (inner_open (px (s_low s)) (px (s_high s)) a A) as [[P1 P1']|[P1 P1']]; destruct (inner_open (px (s_low t)) (px (s_high t)) b B) as [[Q1 Q1']|[Q1 Q1']].
  - apply N. unfold cross. rewrite P1', Q1'. ring.
  - rewrite Z.min_l in Q1 by lia. apply IZR_le in L. rewrite P1' in *. lra.
  - rewrite Z.max_r in P1' by lia. apply IZR_le in L. lra.
  - rewrite Z.max_r in P1' by lia. rewrite Z.min_l in Q1 by lia. apply IZR_le in L. lra.
Qed.
(* edges that share an end *)
Lemma found_share ips s i t j e : (e = s_low s \/ e = s_high s) -> (e = s_low t \/ e = s_high t) -> found ips s i t j.
Proof.
  intros P Q x y N C ES ET. exfalso.
  assert (CP : common s t (IZR (px e)) (IZR (py e))) by (split; [destruct P as [-> | ->]|destruct Q as [-> | ->]]; auto using ron_low, ron_high).
  assert (NR : rcross s t <> 0%R) by (rewrite rcross_cross; intros K; apply N; apply eq_IZR; exact K).
  destruct (common_unique s t x y _ _ NR C CP) as [-> ->]. apply ES. destruct P as [-> | ->]; [left|right]; split; reflexivity.
Qed.
Lemma found_none ips s i t j : seg_small s -> seg_small t -> sb_compute_intersection s t = Ok None -> found ips s i t j.
Proof.
  intros SS ST E x y N C ES ET. destruct (compute_intersection_spec s t SS ST) as [r [R [_ F]]]. rewrite E in R. assert (r = None) by congruence. subst r.
  destruct (F x y N C) as [p [P _]]; [|discriminate]. apply (intersects_complete s t x y); auto using seg_small_int. rewrite rcross_cross. intros K. apply N. apply eq_IZR. exact K.
Qed.
Lemma found_some ips s i t j p : seg_small s -> seg_small t -> sb_compute_intersection s t = Ok (Some p) -> In p (ips i) -> In p (ips j) -> found ips s i t j.
Proof.
  intros SS ST E PI PJ x y N C ES ET. destruct (compute_intersection_spec s t SS ST) as [r [R [_ F]]]. rewrite E in R. assert (r = Some p) by congruence. subst r.
  destruct (F x y N C) as [q [Q NQ]].
  - apply (intersects_complete s t x y); auto using seg_small_int. rewrite rcross_cross. intros K. apply N. apply eq_IZR. exact K.
  - assert (q = p) by congruence. subst q. exists p. auto.
Qed.
Lemma passes_y c s p : passes s p -> ys_from c s = true -> c <= py p.
Proof.
  intros P Y. apply passes_box in P. unfold inbox in P. unfold ys_from in Y. apply andb_true_iff in Y as [A B]. apply Z.geb_le in A, B. lia.
Qed.
Lemma seg_eqb_iff s t : seg_eqb s t = true <-> s = t.
Proof. unfold seg_eqb. rewrite andb_true_iff, !pt_eqb_iff. destruct s, t. cbn. split; [intros [-> ->]; reflexivity|intros E; split; congruence]. Qed.
Definition low_le (a b : entry) : Prop := px (s_low (fst a)) <= px (s_low (fst b)).

Section loops.
  Variable G : list entry.
  Hypothesis GG : good G.
  Variable c : Z.

  Lemma small_of s i : In (s, i) G -> seg_small s.
  Proof. intros H. apply (proj1 GG s i H). Qed.
  Lemma ordered_of s i : In (s, i) G -> ordered s.
  Proof. intros H. apply (proj1 GG s i H). Qed.
  Lemma sound_add ips s i p : sound G ips -> In (s, i) G -> passes s p -> origin G p -> sound G (add_pt ips i p).
  Proof.
    intros S I P O t j q T Q. apply add_in in Q. destruct Q as [Q|[-> ->]]; [apply (S t j); assumption|]. rewrite (proj2 GG _ _ _ T I). split; [exact P|exact O].
  Qed.
  Lemma inner_spec outer : In outer G -> forall inner pts ips, incl inner G -> StronglySorted low_le inner -> sound G ips -> sets_sorted ips ->
    exists pts' ips', vs_inner c outer inner pts ips = Ok (pts', ips') /\ sound G ips' /\ sets_sorted ips' /\ grow ips ips' /\ incl pts pts' /\
      (forall i p, In p (ips' i) -> In p (ips i) \/ In p pts') /\
      (forall p, In p pts' -> In p pts \/ (small_pt p /\ origin G p /\ c <= py p)) /\
      (forall e, In e inner -> ys_from c (fst outer) || ys_from c (fst e) = true -> found ips' (fst outer) (snd outer) (fst e) (snd e)).
  Proof.
    intros O. destruct outer as [s i]. cbn [fst snd]. pose proof (small_of s i O) as SS. pose proof (ordered_of s i O) as OS.
    induction inner as [|[t j] inner IH]; intros pts ips I SO S K; cbn [vs_inner].
    { exists pts, ips. split; [reflexivity|]. split; [exact S|]. split; [exact K|]. split; [apply grow_refl|]. split; [intros ? ?; assumption|]. split; [auto|]. split; [auto|]. intros e []. }
    assert (T : In (t, j) G) by (apply I; left; reflexivity). pose proof (small_of t j T) as ST. pose proof (ordered_of t j T) as OT.
    assert (I' : incl inner G) by (intros e E; apply I; right; exact E).
    apply StronglySorted_inv in SO as [SO FO]. cbn [fst snd].
    (* go on without a new point *)
    assert (SKIP : (ys_from c s || ys_from c t = true -> found ips s i t j) ->
      exists pts' ips', vs_inner c (s, i) inner pts ips = Ok (pts', ips') /\ sound G ips' /\ sets_sorted ips' /\ grow ips ips' /\ incl pts pts' /\
      (forall i p, In p (ips' i) -> In p (ips i) \/ In p pts') /\ (forall p, In p pts' -> In p pts \/ (small_pt p /\ origin G p /\ c <= py p)) /\
      (forall e, In e ((t, j) :: inner) -> ys_from c s || ys_from c (fst e) = true -> found ips' s i (fst e) (snd e))).
    { intros F. destruct (IH pts ips I' SO S K) as [pts' [ips' [E [S' [K' [GR [IN [OR [PO FI]]]]]]]]]. exists pts', ips'. repeat (split; [assumption|]).
      intros e [<-|X] Y; [apply (found_grow ips); [exact GR|apply F; exact Y]|apply FI; assumption]. }
    destruct (ys_from c s || ys_from c t) eqn:Y; [|apply SKIP; discriminate].
    destruct (seg_eqb s t) eqn:EQ.
    { apply seg_eqb_iff in EQ. subst t. apply SKIP. intros _. apply (found_share _ _ _ _ _ (s_low s)); auto. }
    apply ordered_x in OS as OX. apply ordered_x in OT as OY.
    destruct (Z.min (px (s_low t)) (px (s_high t)) >=? Z.max (px (s_high s)) (px (s_low s))) eqn:BR.
    { apply Z.geb_le in BR. rewrite Z.min_l, Z.max_l in BR by lia.
      exists pts, ips. split; [reflexivity|]. split; [exact S|]. split; [exact K|]. split; [apply grow_refl|]. split; [intros ? ?; assumption|]. split; [auto|]. split; [auto|].
      intros [t' j'] E _. cbn [fst snd]. apply found_later; [exact OS|apply (ordered_of t' j'); apply I; exact E|]. destruct E as [E|E]; [assert (t' = t) by congruence; subst; lia|].
      rewrite Forall_forall in FO. specialize (FO _ E). unfold low_le in FO. cbn [fst] in FO. lia. }
    destruct (pt_eqb (s_low s) (s_low t) || pt_eqb (s_high s) (s_high t)) eqn:SH.
    { apply SKIP. intros _. apply orb_true_iff in SH. rewrite !pt_eqb_iff in SH. destruct SH as [SH|SH]; [apply (found_share _ _ _ _ _ (s_low s))|apply (found_share _ _ _ _ _ (s_high s))]; auto. }
    destruct (compute_intersection_spec s t SS ST) as [r [R [RP _]]]. rewrite R. cbn [obind]. destruct r as [p|].
    2:{ apply SKIP. intros _. apply found_none; assumption. }
    destruct (RP p eq_refl) as [SP [PS [PT [x0 [y0 [CC NC]]]]]].
    assert (OP : origin G p).
    { right. exists (s, i), (t, j), x0, y0. cbn [fst snd]. repeat (split; [assumption|]). split; [|split; assumption]. intros ->. assert (s = t) by (apply (proj2 GG s t j); assumption). subst t. rewrite (proj2 (seg_eqb_iff s s) eq_refl) in EQ. discriminate. }
    assert (CP : c <= py p) by (apply orb_true_iff in Y; destruct Y as [Y|Y]; [apply (passes_y c s)|apply (passes_y c t)]; assumption).
    set (ips1 := add_pt (add_pt ips j p) i p).
    assert (S1 : sound G ips1) by (apply (sound_add _ s); [apply (sound_add _ t); assumption|assumption|assumption|assumption]).
    assert (K1 : sets_sorted ips1) by (apply add_sorted, add_sorted; exact K).
    assert (G1 : grow ips ips1) by (apply (grow_trans _ (add_pt ips j p)); apply add_grow).
    assert (PI : In p (ips1 i)) by (unfold ips1; apply add_in; right; auto). assert (PJ : In p (ips1 j)) by (unfold ips1; apply add_in; left; apply add_in; right; auto).
    destruct (IH (p :: pts) ips1 I' SO S1 K1) as [pts' [ips' [E [S' [K' [GR [IN [OR [PO FI]]]]]]]]].
    exists pts', ips'. split; [exact E|]. split; [exact S'|]. split; [exact K'|]. split; [apply (grow_trans _ ips1); assumption|].
    split; [intros q Q; apply IN; right; exact Q|].
    split.
    { intros k q Q. apply OR in Q. destruct Q as [Q|Q]; [|right; exact Q]. unfold ips1 in Q. rewrite !add_in in Q. destruct Q as [[Q|[_ ->]]|[_ ->]]; [left; exact Q| |]; right; apply IN; left; reflexivity. }
    split.
    { intros q Q. apply PO in Q. destruct Q as [[<-|Q]|Q]; auto. }
    intros e [<-|X] Y'; [|apply FI; assumption]. cbn [fst snd]. apply (found_grow ips1); [exact GR|]. apply (found_some _ _ _ _ _ p); assumption.
  Qed.
  Lemma StronglySorted_app_r {A : Type} (R : A -> A -> Prop) a l : StronglySorted R (a :: l) -> StronglySorted R l.
  Proof. intros S. apply StronglySorted_inv in S. apply S. Qed.
  Lemma outer_spec : forall data pts ips, incl data G -> StronglySorted low_le data -> sound G ips -> sets_sorted ips ->
    exists pts' ips', vs_outer c data pts ips = Ok (pts', ips') /\ sound G ips' /\ sets_sorted ips' /\ grow ips ips' /\ incl pts pts' /\
      (forall i p, In p (ips' i) -> In p (ips i) \/ In p pts') /\
      (forall p, In p pts' -> In p pts \/ an_end data p \/ (small_pt p /\ origin G p /\ c <= py p)) /\
      (forall p, an_end data p -> In p pts') /\
      (forall e p, In e data -> In p (ips (snd e)) -> c <= py p -> In p pts') /\
      (forall e e', In e data -> In e' data -> ys_from c (fst e) || ys_from c (fst e') = true -> found ips' (fst e) (snd e) (fst e') (snd e')).
  Proof.
    induction data as [|[s i] data IH]; intros pts ips I SO S K; cbn [vs_outer]; cbv zeta.
    { exists pts, ips. split; [reflexivity|]. split; [exact S|]. split; [exact K|]. split; [apply grow_refl|]. split; [intros ? ?; assumption|]. split; [auto|]. split; [auto|].
      split; [intros p [e [[] _]]|]. split; [intros e p []|intros e e' []]. }
    assert (T : In (s, i) G) by (apply I; left; reflexivity). pose proof (small_of s i T) as SS.
    cbn [fst snd]. set (pts1 := filter (fun p => py p >=? c) (ips i) ++ s_high s :: s_low s :: pts).
    destruct (inner_spec (s, i) T ((s, i) :: data) pts1 ips I SO S K) as [pts2 [ips2 [E [S2 [K2 [G2 [IN2 [OR2 [PO2 F2]]]]]]]]].
    unfold entry in E |- *. rewrite E. fold entry. cbn [obind]. cbv iota beta.
    assert (I' : incl data G) by (intros e X; apply I; right; exact X).
    destruct (IH pts2 ips2 I' (StronglySorted_app_r _ _ _ SO) S2 K2) as [pts' [ips' [E' [S' [K' [G' [IN' [OR' [PO' [AE' [PU' F']]]]]]]]]]].
    exists pts', ips'. split; [exact E'|]. split; [exact S'|]. split; [exact K'|]. split; [apply (grow_trans _ ips2); assumption|].
    assert (P1 : incl pts1 pts') by (intros q Q; apply IN', IN2, Q).
    split; [intros q Q; apply P1; unfold pts1; apply in_or_app; right; right; right; exact Q|].
    split.
    { intros k q Q. apply OR' in Q. destruct Q as [Q|Q]; [|right; exact Q]. apply OR2 in Q. destruct Q as [Q|Q]; [left; exact Q|right; apply IN'; exact Q]. }
    split.
    { intros q Q. apply PO' in Q. destruct Q as [Q|[[e [X Q]]|Q]]; [|right; left; exists e; split; [right; exact X|exact Q]|auto]. apply PO2 in Q. destruct Q as [Q|Q]; [|auto].
      unfold pts1 in Q. apply in_app_or in Q. destruct Q as [Q|[Q|[Q|Q]]].
      - apply filter_In in Q as [Q Y]. apply Z.geb_le in Y. right. right. destruct (S s i q T Q) as [PQ OQ]. split; [|split; [exact OQ|exact Y]]. apply (small_box s); [exact SS|]. apply passes_box. exact PQ.
      - right. left. exists (s, i). split; [left; reflexivity|]. auto.
      - right. left. exists (s, i). split; [left; reflexivity|]. auto.
      - auto. }
    split.
    { intros q [e [[<-|X] Q]]; [|apply AE'; exists e; auto]. apply P1. unfold pts1. apply in_or_app. right. cbn [fst] in Q. destruct Q as [-> | ->]; cbn [In]; auto. }
    split.
    { intros e q [<-|X] Q Y; [|apply (PU' e); [exact X|apply G2; exact Q|exact Y]]. apply P1. unfold pts1. apply in_or_app. left. apply filter_In. split; [exact Q|]. apply Z.geb_le. exact Y. }
    intros e e' X X' Y. assert (FF : forall e', In e' ((s, i) :: data) -> ys_from c s || ys_from c (fst e') = true -> found ips' s i (fst e') (snd e')) by (intros e0 X0 Y0; apply (found_grow ips2); [exact G'|apply F2; assumption]).
    destruct X as [<-|X]; [apply FF; assumption|]. destruct X' as [<-|X']; [|apply F'; assumption].
    apply found_sym. apply FF; [right; exact X|]. rewrite orb_comm. exact Y.
  Qed.
  (* the points on an edge *)
  Lemma pass_spec s i stop : In (s, i) G -> forall l ips, StronglySorted x_le l -> (forall p, In p l -> small_pt p /\ origin G p) -> sound G ips -> sets_sorted ips ->
    exists ips', vs_pass (s, i) stop l ips = Ok ips' /\ sound G ips' /\ sets_sorted ips' /\ grow ips ips' /\
      (forall k p, In p (ips' k) -> In p (ips k) \/ In p l) /\
      (forall p, In p l -> px p <= stop -> passes s p -> In p (ips' i)).
  Proof.
    intros T. pose proof (seg_small_int _ (small_of s i T)) as IS.
    induction l as [|p l IH]; intros ips SO SM S K; cbn [vs_pass].
    { exists ips. split; [reflexivity|]. split; [exact S|]. split; [exact K|]. split; [apply grow_refl|]. split; [auto|intros p []]. }
    apply StronglySorted_inv in SO as [SO FO].
    destruct (Z.leb_spec (px p) stop) as [L|L].
    2:{ exists ips. split; [reflexivity|]. split; [exact S|]. split; [exact K|]. split; [apply grow_refl|]. split; [auto|]. intros q [<-|Q] Y; [lia|]. exfalso.
        rewrite Forall_forall in FO. specialize (FO _ Q). unfold x_le in FO. lia. }
    destruct (SM p (or_introl eq_refl)) as [SP OP].
    destruct (grid_exact p s (small_int _ SP) IS) as [g [E GE]]; [unfold small_pt in SP; lia|unfold small_pt in SP; lia|].
    cbn [fst snd]. rewrite E. cbn [obind].
    assert (S1 : sound G (if g then add_pt ips i p else ips)) by (destruct g; [apply (sound_add _ s); [exact S|exact T|apply GE; reflexivity|exact OP]|exact S]).
    assert (K1 : sets_sorted (if g then add_pt ips i p else ips)) by (destruct g; [apply add_sorted|]; exact K).
    assert (G1 : grow ips (if g then add_pt ips i p else ips)) by (destruct g; [apply add_grow|apply grow_refl]).
    destruct (IH _ SO (fun q Q => SM q (or_intror Q)) S1 K1) as [ips' [E' [S' [K' [G' [OR FI]]]]]].
    exists ips'. split; [exact E'|]. split; [exact S'|]. split; [exact K'|]. split; [apply (grow_trans _ _ _ G1 G')|]. split.
    - intros k q Q. apply OR in Q. destruct Q as [Q|Q]; [|right; right; exact Q]. destruct g; [|left; exact Q]. apply add_in in Q. destruct Q as [Q|[_ ->]]; [left; exact Q|right; left; reflexivity].
    - intros q [<-|Q] Y P; [|apply FI; assumption]. apply G'. apply GE in P. subst g. apply add_in. right. auto.
  Qed.
  Lemma drop_spec x l : StronglySorted x_le l -> StronglySorted x_le (drop_before x l) /\ incl (drop_before x l) l /\ (forall p, In p l -> x <= px p -> In p (drop_before x l)).
  Proof.
    induction l as [|p l IH]; intros S; cbn [drop_before]; [split; [constructor|split; [intros ? ?; assumption|intros ? []]]|].
    destruct (Z.ltb_spec (px p) x) as [L|L]; [|split; [exact S|split; [intros ? ?; assumption|auto]]].
    apply StronglySorted_inv in S as [S F]. destruct (IH S) as [A [B C]]. split; [exact A|]. split; [intros q Q; right; apply B; exact Q|]. intros q [<-|Q] Y; [lia|apply C; assumption].
  Qed.
  Lemma points_spec : forall data finger ips, incl data G -> StronglySorted low_le data -> StronglySorted x_le finger -> (forall p, In p finger -> small_pt p /\ origin G p) -> sound G ips -> sets_sorted ips ->
    exists ips', vs_points data finger ips = Ok ips' /\ sound G ips' /\ sets_sorted ips' /\ grow ips ips' /\
      (forall k p, In p (ips' k) -> In p (ips k) \/ In p finger) /\
      (forall s i p, In (s, i) data -> In p finger -> passes s p -> In p (ips' i)).
  Proof.
    induction data as [|[s i] data IH]; intros finger ips I SO SF SM S K; cbn [vs_points]; cbv zeta.
    { exists ips. split; [reflexivity|]. split; [exact S|]. split; [exact K|]. split; [apply grow_refl|]. split; [auto|intros s i p []]. }
    assert (T : In (s, i) G) by (apply I; left; reflexivity). pose proof (ordered_of s i T) as OS. cbn [fst snd].
    assert (E1 : pt_min (s_low s) (s_high s) = s_low s) by (unfold pt_min; unfold ordered in OS; rewrite OS; reflexivity).
    assert (E2 : px (pt_max (s_low s) (s_high s)) = px (s_high s)).
    { unfold pt_max. destruct (pt_less (s_low s) (s_high s)) eqn:L; [reflexivity|]. f_equal. apply pt_less_total; assumption. }
    rewrite E1, E2. destruct (drop_spec (px (s_low s)) finger SF) as [DS [DI DK]].
    destruct (pass_spec s i (px (s_high s)) T _ ips DS (fun q Q => SM q (DI q Q)) S K) as [ips1 [P1 [S1 [K1 [G1 [OR1 F1]]]]]].
    rewrite P1. cbn [obind].
    assert (I' : incl data G) by (intros e X; apply I; right; exact X).
    pose proof SO as SO0. apply StronglySorted_inv in SO as [SO FO].
    destruct (IH _ ips1 I' SO DS (fun q Q => SM q (DI q Q)) S1 K1) as [ips' [P' [S' [K' [G' [OR' F']]]]]].
    exists ips'. split; [exact P'|]. split; [exact S'|]. split; [exact K'|]. split; [apply (grow_trans _ ips1); assumption|]. split.
    - intros k p P. apply OR' in P. destruct P as [P|P]; [|right; apply DI; exact P]. apply OR1 in P. destruct P as [P|P]; [left; exact P|right; apply DI; exact P].
    - intros t j p [X|X] P PA.
      + assert (t = s) by congruence. assert (j = i) by congruence. subst t j. pose proof (passes_box _ _ PA) as [[B1 B2] _]. apply ordered_x in OS.
        rewrite Z.min_l in B1 by lia. rewrite Z.max_r in B2 by lia. apply G'. apply F1; [apply DK; assumption|exact B2|exact PA].
      + apply (F' t j); [exact X| |exact PA]. apply DK; [exact P|]. rewrite Forall_forall in FO. specialize (FO _ X). unfold low_le in FO. cbn [fst] in FO.
        pose proof (passes_box _ _ PA) as [[B1 B2] _]. pose proof (ordered_x t (ordered_of t j (I' _ X))). lia.
  Qed.
End loops.
