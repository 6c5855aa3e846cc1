(* Snap rounding: consecutive hot pixels that a segment passes are joined by a link,
   and parts of segments that meet belong to links that share an end. *)
From Verif Require Import Base Poly90Spec Poly90Model Poly90Proofs GeoSpec RectModel SnapModel SnapMove SnapNode.
From Coq Require Import Reals Lra Psatz.
Local Open Scope R_scope.

(* the direction: from the lexicographically smaller end *)
Definition directed (s : seg) : Prop := pt_less (s_low s) (s_high s) = true.
Definition falls (s : seg) : bool := (px (s_low s) <? px (s_high s))%Z && (py (s_high s) <? py (s_low s))%Z.
Definition ord (s : seg) : point -> point -> bool := if falls s then down_less else pt_less.
(* the pixel c is passed *)
Definition passes (s : seg) (c : point) : Prop := exists x y, ron (s_low s) (s_high s) x y /\ pixel c x y.

Lemma pt_less_r p q : pt_less p q = true <-> IZR (px p) < IZR (px q) \/ (px p = px q /\ IZR (py p) < IZR (py q)).
Proof.
  unfold pt_less. rewrite orb_true_iff, andb_true_iff, !Z.ltb_lt, Z.eqb_eq.
  split; (intros [H|[H K]]; [left|right; split; [exact H|]]; auto using IZR_lt, lt_IZR).
Qed.
Lemma down_less_r p q : down_less p q = true <-> IZR (px p) < IZR (px q) \/ (px p = px q /\ IZR (py q) < IZR (py p)).
Proof.
  unfold down_less. rewrite orb_true_iff, andb_true_iff, Z.ltb_lt, Z.eqb_eq, Z.gtb_lt.
  split; (intros [H|[H K]]; [left|right; split; [exact H|]]; auto using IZR_lt, lt_IZR).
Qed.
Lemma cell_le (a b : Z) (x y : R) : x <= y -> IZR a <= x < IZR a + 1 -> IZR b <= y < IZR b + 1 -> (a <= b)%Z.
Proof.
  intros H A B. assert (IZR a < IZR (b + 1)) by (rewrite plus_IZR; lra). apply lt_IZR in H0. lia.
Qed.
Definition at_x (s : seg) (t : R) : R := IZR (px (s_low s)) + t * (IZR (px (s_high s)) - IZR (px (s_low s))).
Definition at_y (s : seg) (t : R) : R := IZR (py (s_low s)) + t * (IZR (py (s_high s)) - IZR (py (s_low s))).
(* the pixels are passed in the order *)
Lemma pass_mono s t1 t2 c1 c2 : directed s -> t1 <= t2 -> pixel c1 (at_x s t1) (at_y s t1) -> pixel c2 (at_x s t2) (at_y s t2) ->
  c1 = c2 \/ ord s c1 c2 = true.
Proof.
  intros D T [X1 Y1] [X2 Y2]. unfold directed in D. apply pt_less_r in D.
  assert (LX : at_x s t1 <= at_x s t2).
  { unfold at_x. assert (0 <= IZR (px (s_high s)) - IZR (px (s_low s))) by (destruct D as [D|[D _]]; [|rewrite D]; lra). nra. }
  assert (CX := cell_le _ _ _ _ LX X1 X2).
  unfold ord. destruct (falls s) eqn:F.
  - apply andb_true_iff in F as [_ F]. apply Z.ltb_lt in F. apply IZR_lt in F.
    assert (LY : at_y s t2 <= at_y s t1) by (unfold at_y; nra).
    assert (CY := cell_le _ _ _ _ LY Y2 Y1). rewrite down_less_r.
    destruct (Z.eq_dec (px c1) (px c2)) as [E|E]; [|right; left; apply IZR_lt; lia].
    destruct (Z.eq_dec (py c1) (py c2)) as [E2|E2]; [left; destruct c1, c2; cbn in *; congruence|right; right; split; [exact E|apply IZR_lt; lia]].
  - assert (LY : px (s_low s) = px (s_high s) /\ at_y s t1 <= at_y s t2 \/ at_y s t1 <= at_y s t2).
    { assert (IZR (py (s_low s)) <= IZR (py (s_high s))).
      { destruct D as [D|[_ D]]; [|lra]. apply lt_IZR in D. apply andb_false_iff in F as [F|F]; apply Z.ltb_ge in F; [lia|]. apply IZR_le. exact F. }
      right. unfold at_y. nra. }
    assert (LY' : at_y s t1 <= at_y s t2) by tauto.
    assert (CY := cell_le _ _ _ _ LY' Y1 Y2). rewrite pt_less_r.
    destruct (Z.eq_dec (px c1) (px c2)) as [E|E]; [|right; left; apply IZR_lt; lia].
    destruct (Z.eq_dec (py c1) (py c2)) as [E2|E2]; [left; destruct c1, c2; cbn in *; congruence|right; right; split; [exact E|apply IZR_lt; lia]].
Qed.
Lemma ord_asym s p q : ord s p q = true -> ord s q p = true -> False.
Proof.
  unfold ord. destruct (falls s); rewrite ?down_less_r, ?pt_less_r; intros [H|[H H']] [K|[K K']]; rewrite ?H, ?K in *; lra.
Qed.
Lemma ord_irrefl s p : ord s p p = true -> False.
Proof. intros H. exact (ord_asym s p p H H). Qed.

(* two hot pixels next to each other on s *)
Definition clink (hot : point -> Prop) (s : seg) (u v : point) (tu tv : R) : Prop :=
  0 <= tu /\ tu <= tv /\ tv <= 1 /\ hot u /\ hot v /\
  pixel u (at_x s tu) (at_y s tu) /\ pixel v (at_x s tv) (at_y s tv) /\ ord s u v = true /\
  forall c, hot c -> passes s c -> ord s u c = true -> ord s c v = true -> False.
Lemma clink_exists (hot : point -> Prop) s u v : directed s -> hot u -> hot v -> passes s u -> passes s v -> ord s u v = true ->
  (forall c, hot c -> passes s c -> ord s u c = true -> ord s c v = true -> False) -> exists tu tv, clink hot s u v tu tv.
Proof.
  intros D HU HV [x [y [[tu [TU [<- <-]]] PU]]] [x' [y' [[tv [TV [<- <-]]] PV]]] O N. exists tu, tv.
  fold (at_x s tu) (at_y s tu) in PU. fold (at_x s tv) (at_y s tv) in PV. unfold unit in *.
  unfold clink. repeat (split; [first [lra|assumption|idtac]|]); try assumption.
  destruct (Rle_dec tu tv) as [L|L]; [exact L|]. exfalso.
  destruct (pass_mono s tv tu v u D ltac:(lra) PV PU) as [E|E]; [subst; exact (ord_irrefl _ _ O)|exact (ord_asym _ _ _ O E)].
Qed.
(* a point between two points of the segment *)
Lemma on_part s tu tv x y : tu <= tv -> on (at_x s tu) (at_y s tu) (at_x s tv) (at_y s tv) x y -> exists t, tu <= t <= tv /\ x = at_x s t /\ y = at_y s t.
Proof.
  intros L [r [R [<- <-]]]. exists (tu + r * (tv - tu)). unfold unit in R. split; [split; nra|]. unfold at_x, at_y. split; ring.
Qed.
Lemma part_on s tu tv t : tu <= t <= tv -> on (at_x s tu) (at_y s tu) (at_x s tv) (at_y s tv) (at_x s t) (at_y s t).
Proof.
  intros [A B]. destruct (Req_dec tu tv) as [E|E].
  - exists 0. unfold unit. assert (t = tu) by lra. subst. repeat split; lra.
  - exists ((t - tu) / (tv - tu)). split.
    + unfold unit. split; apply (Rmult_le_reg_r (tv - tu)); try lra; unfold Rdiv; rewrite ?Rmult_assoc, ?Rinv_l by lra; lra.
    + unfold at_x, at_y. split; field; lra.
Qed.
Lemma at_ron s t : 0 <= t <= 1 -> ron (s_low s) (s_high s) (at_x s t) (at_y s t).
Proof. intros T. exists t. split; [exact T|]. split; reflexivity. Qed.
Lemma clink_mid (hot : point -> Prop) s u v tu tv c t : directed s -> clink hot s u v tu tv -> tu <= t <= tv -> hot c -> pixel c (at_x s t) (at_y s t) -> c = u \/ c = v.
Proof.
  intros D [A [L [B [HU [HV [PU [PV [O N]]]]]]]] T H C.
  destruct (pass_mono s tu t u c D ltac:(lra) PU C) as [E|E]; [left; congruence|].
  destruct (pass_mono s t tv c v D ltac:(lra) C PV) as [E2|E2]; [right; congruence|].
  exfalso. apply (N c H); try assumption. exists (at_x s t), (at_y s t). split; [apply at_ron; lra|exact C].
Qed.
Lemma clink_link (hot : point -> Prop) s u v tu tv : directed s -> clink hot s u v tu tv -> link hot u v (at_x s tu) (at_y s tu) (at_x s tv) (at_y s tv).
Proof.
  intros D K. pose proof K as [A [L [B [HU [HV [PU [PV _]]]]]]]. unfold link. repeat (split; [assumption|]).
  intros c x y H ON C. destruct (on_part s tu tv x y L ON) as [t [T [-> ->]]]. exact (clink_mid hot s u v tu tv c t D K T H C).
Qed.

(* ---------- parts that meet ---------- *)
Definition rcross (s t : seg) : R :=
  (IZR (px (s_high s)) - IZR (px (s_low s))) * (IZR (py (s_high t)) - IZR (py (s_low t))) - (IZR (py (s_high s)) - IZR (py (s_low s))) * (IZR (px (s_high t)) - IZR (px (s_low t))).
(* what must be hot for two segments that are not parallel: the pixel of the
   common point; or, for a vertical segment, the pixel above it if both pass it *)
Definition above_case (hot : point -> Prop) (v o : seg) (x y : R) : Prop :=
  px (s_low v) = px (s_high v) /\ exists c, hot c /\ passes v c /\ passes o c /\ pixel (mk_pt (px c) (py c - 1)) x y /\ px c = px (s_low v).
Definition cross_hot (hot : point -> Prop) (s t : seg) : Prop :=
  forall x y, rcross s t <> 0 -> ron (s_low s) (s_high s) x y -> ron (s_low t) (s_high t) x y ->
  (exists c, hot c /\ pixel c x y) \/ above_case hot s t x y \/ above_case hot t s x y.

Lemma share_sym u v w z : share w z u v -> share u v w z.
Proof. unfold share. intuition. Qed.
(* an end inside the other part *)
Lemma share_in (hot : point -> Prop) s u v tu tv c q : directed s -> clink hot s u v tu tv -> tu <= q <= tv -> hot c -> pixel c (at_x s q) (at_y s q) -> c = u \/ c = v.
Proof. intros. eapply clink_mid; eassumption. Qed.
(* segments on one line *)
Lemma line_share (hot : point -> Prop) s t u v tu tv w z tw tz x y : directed s -> directed t -> clink hot s u v tu tv -> clink hot t w z tw tz ->
  rcross s t = 0 -> on (at_x s tu) (at_y s tu) (at_x s tv) (at_y s tv) x y -> on (at_x t tw) (at_y t tw) (at_x t tz) (at_y t tz) x y -> share u v w z.
Proof.
  intros DS DT KS KT C OS OT.
  pose proof KS as [A [L [B [HU [HV [PU [PV _]]]]]]]. pose proof KT as [A' [L' [B' [HW [HZ [PW [PZ _]]]]]]].
  destruct (on_part s tu tv x y L OS) as [q [Q [X Y]]]. destruct (on_part t tw tz x y L' OT) as [r [R [X' Y']]].
  (* the direction of t is a positive multiple of the one of s *)
  assert (P : exists k, 0 < k /\ IZR (px (s_high t)) - IZR (px (s_low t)) = k * (IZR (px (s_high s)) - IZR (px (s_low s))) /\ IZR (py (s_high t)) - IZR (py (s_low t)) = k * (IZR (py (s_high s)) - IZR (py (s_low s)))).
  { unfold rcross in C. unfold directed in DS, DT. apply pt_less_r in DS. apply pt_less_r in DT.
    destruct DS as [DS|[ES DS]].
    - destruct DT as [DT|[ET DT]].
      + exists ((IZR (px (s_high t)) - IZR (px (s_low t))) / (IZR (px (s_high s)) - IZR (px (s_low s)))).
        split; [apply Rdiv_lt_0_compat; lra|]. split; [field; lra|]. apply (Rmult_eq_reg_l (IZR (px (s_high s)) - IZR (px (s_low s)))); [|lra]. field_simplify; [lra|lra].
      + exfalso. rewrite ET in C. nra.
    - destruct DT as [DT|[ET DT]].
      + exfalso. rewrite ES in C. nra.
      + exists ((IZR (py (s_high t)) - IZR (py (s_low t))) / (IZR (py (s_high s)) - IZR (py (s_low s)))).
        split; [apply Rdiv_lt_0_compat; lra|]. rewrite ES, ET. split; [lra|field; lra]. }
  destruct P as [k [K0 [K1 K2]]].
  (* position of a point of t on s *)
  assert (PT : forall p, at_x t p = at_x s (q + k * (p - r)) /\ at_y t p = at_y s (q + k * (p - r))).
  { intros p. unfold at_x, at_y in *. split.
    - replace (IZR (px (s_low t)) + p * (IZR (px (s_high t)) - IZR (px (s_low t)))) with (x + (p - r) * (IZR (px (s_high t)) - IZR (px (s_low t)))) by lra.
      rewrite K1, X. ring.
    - replace (IZR (py (s_low t)) + p * (IZR (py (s_high t)) - IZR (py (s_low t)))) with (y + (p - r) * (IZR (py (s_high t)) - IZR (py (s_low t)))) by lra.
      rewrite K2, Y. ring. }
  destruct (Rle_dec tu (q + k * (tw - r))) as [G|G].
  - destruct (PT tw) as [E1 E2]. rewrite E1, E2 in PW.
    assert (k * (tw - r) <= 0) by nra.
    destruct (clink_mid hot s u v tu tv w (q + k * (tw - r)) DS KS ltac:(lra) HW PW) as [E|E]; subst; unfold share; auto.
  - (* the start of s on t *)
    assert (IK : 0 < / k) by (apply Rinv_0_lt_compat; lra). assert (KI : k * / k = 1) by (apply Rinv_r; lra).
    set (p := r + (tu - q) * / k).
    assert (EP : q + k * (p - r) = tu) by (unfold p; replace (q + k * (r + (tu - q) * / k - r)) with (q + (tu - q) * (k * / k)) by ring; rewrite KI; ring).
    destruct (PT p) as [E1 E2]. rewrite EP in E1, E2. rewrite <- E1, <- E2 in PU.
    clearbody p.
    assert (p <= r) by (apply (Rmult_le_reg_l k); [exact K0|]; lra).
    assert (tw <= p) by (apply (Rmult_le_reg_l k); [exact K0|]; assert (k * p = k * r + tu - q) by (apply (Rplus_eq_reg_l q); lra); lra).
    destruct (clink_mid hot t w z tw tz u p DT KT ltac:(lra) HU PU) as [E|E]; subst; unfold share; auto.
Qed.
(* the pixel above *)
Lemma above_next (hot : point -> Prop) s u v tu tv c q : directed s -> clink hot s u v tu tv -> falls s = false -> hot c -> passes s c -> tu <= q <= tv ->
  pixel (mk_pt (px c) (py c - 1)) (at_x s q) (at_y s q) -> v = c \/ v = mk_pt (px c) (py c - 1).
Proof.
  intros D K F H P Q C. pose proof K as [A [L [B [HU [HV [PU [PV [O N]]]]]]]].
  assert (EO : ord s = pt_less) by (unfold ord; rewrite F; reflexivity). rewrite EO in *.
  destruct (pass_mono s tu q u _ D ltac:(lra) PU C) as [E|E]; destruct (pass_mono s q tv _ v D ltac:(lra) C PV) as [E2|E2]; rewrite ?EO in *.
  - right. congruence.
  - subst u. destruct (pt_eqb v c) eqn:EV; [left; apply pt_eqb_iff; exact EV|]. exfalso. apply (N c H P).
    + apply pt_less_r. right. cbn [px py]. split; [reflexivity|]. apply IZR_lt. lia.
    + unfold pt_less in E2 |- *. cbn [px py] in E2. apply orb_true_iff. apply orb_true_iff in E2. rewrite andb_true_iff, Z.ltb_lt, Z.eqb_eq, Z.ltb_lt in *.
      destruct E2 as [E2|[E2 E3]]; [left; exact E2|]. right. split; [exact E2|]. assert (py v <> py c) by (intros EE; assert (v = c) by (destruct v, c; cbn in *; congruence); subst; rewrite pt_eqb_refl in EV; discriminate). lia.
  - right. congruence.
  - destruct (pt_eqb v c) eqn:EV; [left; apply pt_eqb_iff; exact EV|]. exfalso. apply (N c H P).
    + unfold pt_less in E |- *. cbn [px py] in E. apply orb_true_iff. apply orb_true_iff in E. rewrite andb_true_iff, Z.ltb_lt, Z.eqb_eq, Z.ltb_lt in *. lia.
    + unfold pt_less in E2 |- *. cbn [px py] in E2. apply orb_true_iff. apply orb_true_iff in E2. rewrite andb_true_iff, Z.ltb_lt, Z.eqb_eq, Z.ltb_lt in *.
      destruct E2 as [E2|[E2 E3]]; [left; exact E2|]. right. split; [exact E2|]. assert (py v <> py c) by (intros EE; assert (v = c) by (destruct v, c; cbn in *; congruence); subst; rewrite pt_eqb_refl in EV; discriminate). lia.
Qed.
Lemma above_share (hot : point -> Prop) s t u v tu tv w z tw tz x y : directed s -> directed t -> clink hot s u v tu tv -> clink hot t w z tw tz ->
  on (at_x s tu) (at_y s tu) (at_x s tv) (at_y s tv) x y -> on (at_x t tw) (at_y t tw) (at_x t tz) (at_y t tz) x y ->
  above_case hot s t x y -> share u v w z.
Proof.
  intros DS DT KS KT OS OT [V [c [H [PS [PT [C EX]]]]]].
  pose proof KS as [A [L [B [HU [HV [PU [PV _]]]]]]]. pose proof KT as [A' [L' [B' [HW [HZ [PW [PZ _]]]]]]].
  destruct (on_part s tu tv x y L OS) as [q [Q [X Y]]]. destruct (on_part t tw tz x y L' OT) as [r [R [X' Y']]].
  assert (FS : falls s = false) by (unfold falls; rewrite V, Z.ltb_irrefl; reflexivity).
  assert (X1 : x = IZR (px c)) by (rewrite X, EX; unfold at_x; rewrite V; ring).
  (* t does not fall: it passes the pixel above *)
  assert (FT : falls t = false).
  { destruct (falls t) eqn:F; [exfalso|reflexivity]. apply andb_true_iff in F as [F1 F2]. apply Z.ltb_lt in F1, F2. apply IZR_lt in F1, F2.
    destruct PT as [x2 [y2 [[r2 [R2 [E1 E2]]] [[C1 C2] [C3 C4]]]]].
    fold (at_x t r2) in E1. fold (at_y t r2) in E2. destruct C as [_ [_ C]]. cbn [py] in C. rewrite minus_IZR in C.
    assert (LE : at_x t r <= at_x t r2) by lra. assert (LT : at_y t r < at_y t r2) by lra.
    unfold at_x, at_y in LE, LT. clear - LE LT F1 F2. assert (r <= r2) by (apply (Rmult_le_reg_r (IZR (px (s_high t)) - IZR (px (s_low t)))); lra). nra. }
  assert (CS : pixel (mk_pt (px c) (py c - 1)) (at_x s q) (at_y s q)) by (rewrite <- X, <- Y; exact C).
  assert (CT : pixel (mk_pt (px c) (py c - 1)) (at_x t r) (at_y t r)) by (rewrite <- X', <- Y'; exact C).
  assert (ES := above_next hot s u v tu tv c q DS KS FS H PS Q CS). assert (ET := above_next hot t w z tw tz c r DT KT FT H PT R CT).
  destruct ES as [ES|ES], ET as [ET|ET].
  - unfold share. subst. auto.
  - rewrite ET in HZ. destruct (clink_mid hot s u v tu tv _ q DS KS Q HZ CS) as [E|E]; unfold share; rewrite ET, E; auto.
  - rewrite ES in HV. destruct (clink_mid hot t w z tw tz _ r DT KT R HV CT) as [E|E]; unfold share; rewrite ES, E; auto.
  - unfold share. subst. auto.
Qed.
Lemma meet_share (hot : point -> Prop) s t u v tu tv w z tw tz : directed s -> directed t -> clink hot s u v tu tv -> clink hot t w z tw tz -> cross_hot hot s t ->
  meets (at_x s tu) (at_y s tu) (at_x s tv) (at_y s tv) (at_x t tw) (at_y t tw) (at_x t tz) (at_y t tz) -> share u v w z.
Proof.
  intros DS DT KS KT CH [r1 [r2 [R1 [R2 [E1 E2]]]]].
  set (x := at_x s tu + r1 * (at_x s tv - at_x s tu)) in *. set (y := at_y s tu + r1 * (at_y s tv - at_y s tu)) in *.
  assert (OS : on (at_x s tu) (at_y s tu) (at_x s tv) (at_y s tv) x y) by (exists r1; repeat split; try apply R1).
  assert (OT : on (at_x t tw) (at_y t tw) (at_x t tz) (at_y t tz) x y) by (exists r2; repeat split; try apply R2; symmetry; assumption).
  clearbody x y. clear E1 E2.
  destruct (Req_dec (rcross s t) 0) as [C|C]; [eapply (line_share hot s t); eassumption|].
  pose proof KS as [A [L [B _]]]. pose proof KT as [A' [L' [B' _]]].
  destruct (on_part s tu tv x y L OS) as [q [Q [X Y]]]. destruct (on_part t tw tz x y L' OT) as [r [R [X' Y']]].
  assert (RS : ron (s_low s) (s_high s) x y) by (rewrite X, Y; apply at_ron; lra).
  assert (RT : ron (s_low t) (s_high t) x y) by (rewrite X', Y'; apply at_ron; lra).
  destruct (CH x y C RS RT) as [[c [H P]]|[AC|AC]].
  - assert (P1 := P). rewrite X, Y in P. rewrite X', Y' in P1.
    destruct (clink_mid hot s u v tu tv c q DS KS Q H P) as [E|E]; destruct (clink_mid hot t w z tw tz c r DT KT R H P1) as [F|F]; unfold share; subst; auto.
  - eapply (above_share hot s t); eassumption.
  - apply share_sym. eapply (above_share hot t s); eassumption.
Qed.
(* the noding of two chains *)
Theorem chains_node (hot : point -> Prop) s t u v w z : directed s -> directed t -> cross_hot hot s t ->
  (exists tu tv, clink hot s u v tu tv) -> (exists tw tz, clink hot t w z tw tz) ->
  forall x y, ron u v x y -> ron w z x y ->
  ((is_pt u x y \/ is_pt v x y) /\ (is_pt w x y \/ is_pt z x y)) \/ (u = w /\ v = z) \/ (u = z /\ v = w).
Proof.
  intros DS DT CH [tu [tv KS]] [tw [tz KT]] x y RU RW.
  assert (NU : u <> v).
  { intros ->. destruct KS as [_ [_ [_ [_ [_ [_ [_ [O _]]]]]]]]. exact (ord_irrefl _ _ O). }
  assert (NW : w <> z).
  { intros ->. destruct KT as [_ [_ [_ [_ [_ [_ [_ [O _]]]]]]]]. exact (ord_irrefl _ _ O). }
  refine (meet_ends hot u v w z _ _ _ _ _ _ _ _ (clink_link hot s u v tu tv DS KS) (clink_link hot t w z tw tz DT KT) _ x y NU NW RU RW).
  apply (meet_share hot s t u v tu tv w z tw tz DS DT KS KT CH).
Qed.
