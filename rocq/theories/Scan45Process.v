(* The sweep for 45-degree polygons: the vertices of a column. *)
From Verif Require Import Base Units Scan90Spec Poly90Spec Poly90Model Poly90Proofs ArbSpec ArbSums Ins45Spec Ins45Model Scan45Model Scan45Base Scan45Step.
From Coq Require Import Sorting.Sorted.

Lemma cadd_0_l c : cadd cz c = c.
Proof. c2. Qed.
Lemma cadd_0_r c : cadd c cz = c.
Proof. c2. Qed.
(* how much an event changes the count above it *)
Definition delta (w : event) : cnt2 := csub (cadd (cadd (n_0 w) (n_1 w)) (n_2 w)) (n_3 w).
Definition csum (f : event -> cnt2) (l : list event) : cnt2 := fold_right (fun w c => cadd (f w) c) cz l.
Lemma csum_app f a b : csum f (a ++ b) = cadd (csum f a) (csum f b).
Proof. induction a as [|w a IH]; cbn [app]; [change (csum f []) with cz; c2|]. change (csum f (w :: a ++ b)) with (cadd (f w) (csum f (a ++ b))). change (csum f (w :: a)) with (cadd (f w) (csum f a)). rewrite IH. c2. Qed.
Lemma csum_cons f w l : csum f (w :: l) = cadd (f w) (csum f l).
Proof. reflexivity. Qed.
Lemma csum_ext f h l : (forall w, In w l -> f w = h w) -> csum f l = csum h l.
Proof. induction l as [|w l IH]; intros H; [reflexivity|]. rewrite !csum_cons, IH, (H w (or_introl eq_refl)); [reflexivity|]. intros u U. apply H. right. exact U. Qed.
Lemma csum_zero f l : (forall w, In w l -> f w = cz) -> csum f l = cz.
Proof. induction l as [|w l IH]; intros H; [reflexivity|]. rewrite csum_cons, IH, (H w (or_introl eq_refl)); [reflexivity|]. intros u U. apply H. right. exact U. Qed.
Lemma csum_g g f l : additive g -> g (csum f l) = tot (fun w => g (f w)) l.
Proof. intros [A0 [A1 A2]]. induction l as [|w l IH]; [exact A0|]. rewrite csum_cons, A1, IH. reflexivity. Qed.
Definition yw (w : event) : Z := py (n_pt w).
Definition ds (P : Z -> bool) (l : list event) : cnt2 := csum (fun w => if P (yw w) then delta w else cz) l.

(* the elements that are still in the set, each with the count below it in the set before
   the column *)
Definition ann : Type := (cnt2 * elem)%type.
Fixpoint walk (x s : Z) (l : cnt2) (B : list ann) (evs : list event) : Prop :=
  match B with
  | [] => True
  | (pre, e) :: B' =>
      pre = cadd l (ds (fun y => (s <? y) && (y <? ev e x)) evs) /\ ds (fun y => y =? ev e x) evs = cz /\ walk x (ev e x) (e_cnt e) B' evs
  end.
Definition WB (g : cnt2 -> Z) (F : Z * Z -> Z) (B : list ann) : Z := tot (fun b => (g (e_cnt (snd b)) - g (fst b)) * F (line (snd b))) B.

Lemma WE_ext g F F' gone gone' l : forall d, (forall e, In e l -> gone e = gone' e) -> (forall e, In e l -> gone e = true -> F (line e) = F' (line e)) -> WE g F gone d l = WE g F' gone' d l.
Proof.
  induction l as [|e l IH]; intros d H1 H2; [reflexivity|]. cbn [WE]. rewrite (IH (e_cnt e)) by (intros a A; first [apply H1|apply H2]; right; exact A). rewrite <- (H1 e (or_introl eq_refl)). destruct (gone e) eqn:G; [rewrite (H2 e (or_introl eq_refl) G)|]; reflexivity.
Qed.
Lemma WE_or g F p q l : forall d, (forall e, In e l -> p e = true -> q e = true -> False) -> WE g F (fun e => p e || q e) d l = WE g F p d l + WE g F q d l.
Proof.
  induction l as [|e l IH]; intros d H; [reflexivity|]. cbn [WE]. rewrite IH by (intros a A; apply H; right; exact A). specialize (H e (or_introl eq_refl)). destruct (p e), (q e); cbn [orb]; try lia; exfalso; auto.
Qed.
Lemma filter_all {A : Type} (f : A -> bool) l : (forall a, In a l -> f a = true) -> filter f l = l.
Proof. induction l as [|a l IH]; intros H; [reflexivity|]. cbn [filter]. rewrite (H a (or_introl eq_refl)), IH; [reflexivity|]. intros b B. apply H. right. exact B. Qed.
Lemma filter_none {A : Type} (f : A -> bool) l : (forall a, In a l -> f a = false) -> filter f l = [].
Proof. induction l as [|a l IH]; intros H; [reflexivity|]. cbn [filter]. rewrite (H a (or_introl eq_refl)), IH; [reflexivity|]. intros b B. apply H. right. exact B. Qed.

(* the elements below, at and above a point *)
Definition lts (x y : Z) (A : list elem) : list elem := filter (fun a => ev a x <? y) A.
Definition eqs (x y : Z) (A : list elem) : list elem := filter (fun a => ev a x =? y) A.
Definition gts (x y : Z) (A : list elem) : list elem := filter (fun a => y <? ev a x) A.
Lemma three x y A : StronglySorted (before x) A -> A = lts x y A ++ eqs x y A ++ gts x y A.
Proof.
  induction 1 as [|a A S IH Fo]; [reflexivity|]. rewrite Forall_forall in Fo. unfold lts, eqs, gts in *. cbn [filter]. destruct (Z.lt_trichotomy (ev a x) y) as [L|[E|G]].
  - assert (ev a x <? y = true) as -> by lia. assert (ev a x =? y = false) as -> by lia. assert (y <? ev a x = false) as -> by lia. cbn [app]. f_equal. exact IH.
  - assert (ev a x <? y = false) as -> by lia. assert (ev a x =? y = true) as -> by lia. assert (y <? ev a x = false) as -> by lia. rewrite (filter_none (fun a => ev a x <? y)) in * by (intros b B; specialize (Fo b B); unfold before in Fo; lia). cbn [app] in *. f_equal. exact IH.
  - assert (ev a x <? y = false) as -> by lia. assert (ev a x =? y = false) as -> by lia. assert (y <? ev a x = true) as -> by lia. rewrite (filter_none (fun a => ev a x <? y)), (filter_none (fun a => ev a x =? y)), (filter_all (fun a => y <? ev a x)) by (intros b B; specialize (Fo b B); unfold before in Fo; lia). reflexivity.
Qed.
(* the elements that stay *)
Fixpoint annl (gone : elem -> bool) (d : cnt2) (A : list elem) : list ann :=
  match A with [] => [] | e :: A' => if gone e then annl gone (e_cnt e) A' else (d, e) :: annl gone (e_cnt e) A' end.
Lemma annl_WB g F gone A : forall d, WB g F (annl gone d A) = WK g F gone d A.
Proof. induction A as [|e A IH]; intros d; [reflexivity|]. cbn [annl WK]. destruct (gone e); [rewrite IH; lia|]. unfold WB in *. cbn [tot fst snd]. rewrite IH. reflexivity. Qed.
Lemma annl_map gone A : forall d, map snd (annl gone d A) = filter (fun a => negb (gone a)) A.
Proof. induction A as [|e A IH]; intros d; [reflexivity|]. cbn [annl filter]. destruct (gone e); cbn [negb map snd]; rewrite IH; reflexivity. Qed.
Definition onl (x : Z) (P : Z -> bool) (rb : Z * Z) : Z := if P (fst rb * x + snd rb) then 1 else 0.
Lemma onl_line x P e : onl x P (line e) = if P (ev e x) then 1 else 0.
Proof. unfold onl, line, ev. cbn [fst snd]. replace (e_rise e * x + (e_y e - e_rise e * e_x e)) with (e_y e + e_rise e * (x - e_x e)) by ring. reflexivity. Qed.
Lemma onl_at x P w r : px (n_pt w) = x -> onl x P (line_at (n_pt w) r) = if P (yw w) then 1 else 0.
Proof. intros X. unfold onl, line_at, yw. cbn [fst snd]. rewrite X. replace (r * x + (py (n_pt w) - r * x)) with (py (n_pt w)) by ring. reflexivity. Qed.
Lemma ds_esum g x P cv : additive g -> (forall w, In w cv -> px (n_pt w) = x /\ n_3 w = cz) -> g (ds P cv) = esum g (onl x P) cv.
Proof.
  intros Ag H. unfold ds. rewrite (csum_g g _ _ Ag). destruct Ag as [A0 [A1 A2]]. apply tot_ext. intros w I. destruct (H w I) as [X N]. unfold esum1. rewrite !onl_at by exact X. destruct (P (yw w)); [|rewrite A0; lia]. unfold delta. rewrite A2, !A1, N, A0. lia.
Qed.
Lemma WE_zero g F gone l : forall d, (forall e, In e l -> gone e = true -> F (line e) = 0) -> WE g F gone d l = 0.
Proof. induction l as [|e l IH]; intros d H; [reflexivity|]. cbn [WE]. rewrite IH by (intros a A; apply H; right; exact A). specialize (H e (or_introl eq_refl)). destruct (gone e); [rewrite (H eq_refl); lia|lia]. Qed.
Definition onh (x : Z) (H : Z -> Z) (rb : Z * Z) : Z := H (fst rb * x + snd rb).
Lemma onh_line x H e : onh x H (line e) = H (ev e x).
Proof. unfold onh, line, ev. cbn [fst snd]. f_equal. ring. Qed.
Lemma W_tele g F h l : forall d, (forall e, In e l -> F (line e) = h) -> W g F d l = (g (lastc d l) - g d) * h.
Proof. induction l as [|e l IH]; intros d H; cbn [W lastc]; [lia|]. rewrite (H e (or_introl eq_refl)), IH by (intros a A; apply H; right; exact A). lia. Qed.
Lemma annl_app gone A B : forall d, annl gone d (A ++ B) = annl gone d A ++ annl gone (lastc d A) B.
Proof. induction A as [|e A IH]; intros d; [reflexivity|]. cbn [app annl lastc]. rewrite IH. destruct (gone e); reflexivity. Qed.
Lemma annl_in gone A b : forall d, In b (annl gone d A) -> In (snd b) A /\ gone (snd b) = false.
Proof. induction A as [|e A IH]; intros d H; [destruct H|]. cbn [annl] in H. destruct (gone e) eqn:G; [destruct (IH _ H); split; [right|]; assumption|]. destruct H as [<-|H]; [split; [left; reflexivity|exact G]|destruct (IH _ H); split; [right|]; assumption]. Qed.
Lemma filter3 {X : Type} (f : X -> Z) y l1 l2 l3 m1 m2 m3 : l1 ++ l2 ++ l3 = m1 ++ m2 ++ m3 -> (forall a, In a l1 -> f a < y) -> (forall a, In a l2 -> f a = y) -> (forall a, In a l3 -> y < f a) -> (forall a, In a m1 -> f a < y) -> (forall a, In a m2 -> f a = y) -> (forall a, In a m3 -> y < f a) -> l1 = m1 /\ l2 = m2 /\ l3 = m3.
Proof.
  intros E H1 H2 H3 G1 G2 G3.
  assert (F1 : filter (fun a => f a <? y) (l1 ++ l2 ++ l3) = filter (fun a => f a <? y) (m1 ++ m2 ++ m3)) by (rewrite E; reflexivity).
  assert (F2 : filter (fun a => f a =? y) (l1 ++ l2 ++ l3) = filter (fun a => f a =? y) (m1 ++ m2 ++ m3)) by (rewrite E; reflexivity).
  assert (F3 : filter (fun a => y <? f a) (l1 ++ l2 ++ l3) = filter (fun a => y <? f a) (m1 ++ m2 ++ m3)) by (rewrite E; reflexivity).
  rewrite !filter_app in F1, F2, F3.
  rewrite (filter_all _ l1), (filter_none _ l2), (filter_none _ l3), (filter_all _ m1), (filter_none _ m2), (filter_none _ m3), !app_nil_r in F1 by (intros a A; first [specialize (H1 a A)|specialize (H2 a A)|specialize (H3 a A)|specialize (G1 a A)|specialize (G2 a A)|specialize (G3 a A)]; lia).
  rewrite (filter_none _ l1), (filter_all _ l2), (filter_none _ l3), (filter_none _ m1), (filter_all _ m2), (filter_none _ m3), !app_nil_r in F2 by (intros a A; first [specialize (H1 a A)|specialize (H2 a A)|specialize (H3 a A)|specialize (G1 a A)|specialize (G2 a A)|specialize (G3 a A)]; lia).
  rewrite (filter_none _ l1), (filter_none _ l2), (filter_all _ l3), (filter_none _ m1), (filter_none _ m2), (filter_all _ m3) in F3 by (intros a A; first [specialize (H1 a A)|specialize (H2 a A)|specialize (H3 a A)|specialize (G1 a A)|specialize (G2 a A)|specialize (G3 a A)]; lia).
  cbn [app] in *. auto.
Qed.

(* the elements of the set before the column, also those that are erased *)
Record vinv (x : Z) (gone : elem -> bool) (l : cnt2) (A : list elem) (B : list ann) (evs : list event) : Prop := {
  vi_s : StronglySorted (before x) A;
  vi_g : forall a b, In a A -> In b A -> ev a x = ev b x -> gone a = gone b;
  vi_b : B = annl gone l A;
  vi_e : forall a, In a A -> gone a = true -> exists w, In w evs /\ yw w = ev a x;
  vi_ds : forall g P, additive g -> g (ds P evs) = WE g (onl x P) gone l A }.
Lemma vinv_step x gone l A y B1 BG BU evy rest : vinv x gone l A (B1 ++ BG ++ BU) (evy ++ rest) ->
  (forall w, In w evy -> yw w = y) -> (forall w, In w rest -> y < yw w) -> (forall b, In b B1 -> ev (snd b) x < y) -> (forall b, In b BG -> ev (snd b) x = y) -> (forall b, In b BU -> y < ev (snd b) x) ->
  exists AG AU, A = map snd B1 ++ AG ++ AU /\ (forall a, In a AG -> ev a x = y) /\
    lastc (lastc l (map snd B1)) AG = cadd (lastc (lastc l (map snd B1)) (map snd BG)) (csum delta evy) /\ vinv x gone (lastc (lastc l (map snd B1)) AG) AU BU rest.
Proof.
  intros [VS VG VB VE VD] Hy Hr H1 HG HU. pose proof (three x y A VS) as E3. set (A1 := lts x y A) in *. set (AG := eqs x y A) in *. set (AU := gts x y A) in *.
  assert (I1 : forall a, In a A1 -> In a A /\ ev a x < y) by (intros a I; apply filter_In in I as [I J]; split; [exact I|lia]).
  assert (IG : forall a, In a AG -> In a A /\ ev a x = y) by (intros a I; apply filter_In in I as [I J]; split; [exact I|lia]).
  assert (IU : forall a, In a AU -> In a A /\ y < ev a x) by (intros a I; apply filter_In in I as [I J]; split; [exact I|lia]).
  clearbody A1 AG AU.
  assert (K1 : forall a, In a A1 -> gone a = false).
  { intros a I. apply not_true_iff_false. intros G. destruct (I1 a I) as [Ia La]. destruct (VE a Ia G) as [w [Iw Ew]]. apply in_app_or in Iw as [Iw|Iw]; [specialize (Hy w Iw)|specialize (Hr w Iw)]; lia. }
  rewrite E3, !annl_app in VB. destruct (filter3 (fun b => ev (snd b) x) y _ _ _ _ _ _ VB) as [V1 [V2 V3]]; auto.
  { intros b I. apply annl_in in I as [I _]. apply (I1 _ I). } { intros b I. apply annl_in in I as [I _]. apply (IG _ I). } { intros b I. apply annl_in in I as [I _]. apply (IU _ I). }
  assert (M1 : map snd B1 = A1) by (rewrite V1, annl_map; apply filter_all; intros a I; rewrite (K1 a I); reflexivity).
  rewrite M1 in *. set (l1 := lastc l A1) in *. exists AG, AU. split; [exact E3|]. split; [intros a I; apply (IG a I)|].
  (* the change at y *)
  assert (DY : forall g, additive g -> g (csum delta evy) = WE g (fun _ => 1) gone l1 AG).
  { intros g Ag. transitivity (g (ds (fun z => z =? y) (evy ++ rest))).
    - f_equal. unfold ds. rewrite csum_app, (csum_zero _ rest), cadd_0_r; [|intros w I; specialize (Hr w I); assert (yw w =? y = false) as -> by lia; reflexivity]. apply csum_ext. intros w I. rewrite (Hy w I), Z.eqb_refl. reflexivity.
    - rewrite (VD g _ Ag), E3, !WE_app. fold l1. rewrite (WE_zero g _ gone A1), (WE_zero g _ gone AU).
      + rewrite (WE_ext g (onl x (fun z => z =? y)) (fun _ => 1) gone gone AG l1); [lia|reflexivity|]. intros a I _. rewrite onl_line. destruct (IG a I) as [_ ->]. rewrite Z.eqb_refl. reflexivity.
      + intros a I _. rewrite onl_line. destruct (IU a I) as [_ L]. assert (ev a x =? y = false) as -> by lia. reflexivity.
      + intros a I _. rewrite onl_line. destruct (I1 a I) as [_ L]. assert (ev a x =? y = false) as -> by lia. reflexivity. }
  assert (LG : lastc l1 AG = cadd (lastc l1 (map snd BG)) (csum delta evy)).
  { assert (UN : (forall a, In a AG -> gone a = true) \/ forall a, In a AG -> gone a = false).
    { destruct AG as [|a0 AG]; [right; intros a []|]. destruct (IG a0 (or_introl eq_refl)) as [Ia0 Ea0]. destruct (gone a0) eqn:G; [left|right]; intros a I; destruct (IG a I) as [Ia Ea]; rewrite (VG a a0 Ia Ia0); try exact G; lia. }
    destruct UN as [UN|UN].
    - assert (BG = []) as ->. { rewrite V2. destruct (annl gone l1 AG) as [|b l'] eqn:E; [reflexivity|]. assert (In b (annl gone l1 AG)) as I by (rewrite E; left; reflexivity). apply annl_in in I as [I J]. rewrite (UN _ I) in J. discriminate. }
      cbn [map lastc]. assert (Q : forall g, additive g -> g (lastc l1 AG) = g (cadd l1 (csum delta evy))).
      { intros g Ag. destruct (Ag) as [_ [A1' _]]. rewrite A1', (DY g Ag), (WE_all g _ gone l1 AG UN), (W_tele g _ 1) by reflexivity. lia. }
      apply cnt2_eq; apply Q; [apply fst_additive|apply snd_additive].
    - rewrite V2, annl_map, filter_all by (intros a I; rewrite (UN a I); reflexivity).
      assert (Q : forall g, additive g -> g (csum delta evy) = g cz) by (intros g Ag; rewrite (DY g Ag), (WE_none g _ gone l1 AG UN); destruct Ag as [-> _]; reflexivity).
      assert (csum delta evy = cz) as -> by (apply cnt2_eq; apply Q; [apply fst_additive|apply snd_additive]). rewrite cadd_0_r. reflexivity. }
  split; [exact LG|]. constructor.
  - rewrite E3 in VS. apply strong_app in VS as [_ [VS _]]. apply strong_app in VS as [_ [VS _]]. exact VS.
  - intros a b Ia Ib. apply VG; [apply (IU a Ia)|apply (IU b Ib)].
  - exact V3.
  - intros a Ia G. destruct (IU a Ia) as [Ia1 L]. destruct (VE a Ia1 G) as [w [Iw Ew]]. exists w. split; [|exact Ew]. apply in_app_or in Iw as [Iw|Iw]; [specialize (Hy w Iw); lia|exact Iw].
  - intros g P Ag. transitivity (g (ds (fun z => P z && (y <? z)) (evy ++ rest))).
    + f_equal. unfold ds. rewrite csum_app, (csum_zero _ evy), cadd_0_l; [|intros w I; specialize (Hy w I); assert (y <? yw w = false) as -> by lia; rewrite andb_false_r; reflexivity]. apply csum_ext. intros w I. specialize (Hr w I). assert (y <? yw w = true) as -> by lia. rewrite andb_true_r. reflexivity.
    + rewrite (VD g _ Ag), E3, !WE_app. rewrite (WE_zero g _ gone A1), (WE_zero g _ gone AG).
      * rewrite (WE_ext g (onl x (fun z => P z && (y <? z))) (onl x P) gone gone AU); [reflexivity|reflexivity|]. intros a I _. rewrite !onl_line. destruct (IU a I) as [_ L]. assert (y <? ev a x = true) as -> by lia. rewrite andb_true_r. reflexivity.
      * intros a I _. rewrite onl_line. destruct (IG a I) as [_ ->]. rewrite Z.ltb_irrefl, andb_false_r. reflexivity.
      * intros a I _. rewrite onl_line. destruct (I1 a I) as [_ L]. assert (y <? ev a x = false) as -> by lia. rewrite andb_false_r. reflexivity.
Qed.

Lemma walk_later x evy rest B : forall s l, (forall w, In w evy -> yw w <= s) -> (forall b, In b B -> s < ev (snd b) x) -> StronglySorted (fun a b => ev a x < ev b x) (map snd B) -> walk x s l B (evy ++ rest) -> walk x s l B rest.
Proof.
  induction B as [|[pre e] B IH]; intros s l Hy Hb S H; [exact I|]. cbn [walk map snd] in *. inversion S as [|? ? S1 S2]; subst. pose proof (Hb (pre, e) (or_introl eq_refl)) as He. cbn [snd] in He. destruct H as [H1 [H2 H3]]. unfold ds in *. rewrite csum_app in H1, H2.
  rewrite (csum_zero _ evy) in H1 by (intros w I; specialize (Hy w I); assert ((s <? yw w) && (yw w <? ev e x) = false) as -> by lia; reflexivity).
  rewrite (csum_zero _ evy) in H2 by (intros w I; specialize (Hy w I); assert ((yw w =? ev e x) = false) as -> by lia; reflexivity).
  rewrite cadd_0_l in H1, H2. split; [exact H1|]. split; [exact H2|]. apply (IH (ev e x) (e_cnt e)); auto.
  - intros w I. specialize (Hy w I). lia.
  - intros b I. rewrite Forall_forall in S2. apply S2. apply in_map, I.
Qed.
Lemma walk_step x s l y evy rest BG BU :
  s < y -> (forall w, In w evy -> yw w = y) -> (forall w, In w rest -> y < yw w) -> (length BG <= 1)%nat -> (forall b, In b BG -> ev (snd b) x = y) -> (forall b, In b BU -> y < ev (snd b) x) ->
  StronglySorted (fun a b => ev a x < ev b x) (map snd BU) -> walk x s l (BG ++ BU) (evy ++ rest) ->
  walk x y (cadd (lastc l (map snd BG)) (csum delta evy)) BU rest /\ forall g F, WB g F BG = W g F l (map snd BG).
Proof.
  intros Hs Hy Hr LG HG HU SU H. destruct BG as [|[pre e] [|b' BG]]; [| |cbn in LG; lia].
  - split; [|reflexivity]. cbn [app map lastc] in *. destruct BU as [|[pre e] BU]; [exact I|]. cbn [walk] in *. inversion SU as [|? ? S1 S2]; subst. destruct H as [H1 [H2 H3]]. pose proof (HU (pre, e) (or_introl eq_refl)) as He. cbn [snd] in He.
    unfold ds in *. rewrite csum_app in H1, H2.
    assert (E1 : csum (fun w => if (s <? yw w) && (yw w <? ev e x) then delta w else cz) evy = csum delta evy) by (apply csum_ext; intros w I; specialize (Hy w I); assert ((s <? yw w) && (yw w <? ev e x) = true) as -> by lia; reflexivity).
    assert (E2 : csum (fun w => if (s <? yw w) && (yw w <? ev e x) then delta w else cz) rest = csum (fun w => if (y <? yw w) && (yw w <? ev e x) then delta w else cz) rest) by (apply csum_ext; intros w I; specialize (Hr w I); assert ((s <? yw w) && (yw w <? ev e x) = (y <? yw w) && (yw w <? ev e x)) as -> by lia; reflexivity).
    rewrite E1, E2 in *. rewrite (csum_zero _ evy) in H2 by (intros w I; specialize (Hy w I); assert ((yw w =? ev e x) = false) as -> by lia; reflexivity).
    rewrite cadd_0_l in H2. split; [rewrite H1; c2|]. split; [exact H2|]. apply (walk_later x evy rest BU (ev e x)); auto.
    + intros w I. specialize (Hy w I). lia.
    + intros b I. rewrite Forall_forall in S2. apply S2. apply in_map, I.
  - cbn [app map lastc snd walk] in *. pose proof (HG (pre, e) (or_introl eq_refl)) as He. cbn [snd] in He. rewrite He in *. destruct H as [H1 [H2 H3]]. unfold ds in *. rewrite csum_app in H1, H2.
    rewrite (csum_zero _ evy) in H1 by (intros w I; specialize (Hy w I); assert ((s <? yw w) && (yw w <? y) = false) as -> by lia; reflexivity).
    rewrite (csum_zero _ rest) in H1 by (intros w I; specialize (Hr w I); assert ((s <? yw w) && (yw w <? y) = false) as -> by lia; reflexivity).
    assert (E1 : csum (fun w => if yw w =? y then delta w else cz) evy = csum delta evy) by (apply csum_ext; intros w I; specialize (Hy w I); assert ((yw w =? y) = true) as -> by lia; reflexivity).
    rewrite (csum_zero _ rest) in H2 by (intros w I; specialize (Hr w I); assert ((yw w =? y) = false) as -> by lia; reflexivity). rewrite E1 in H2.
    rewrite cadd_0_r in H2. rename H2 into E2. split.
    + rewrite E2, cadd_0_r. apply (walk_later x evy rest BU y); auto. intros w I. specialize (Hy w I). lia.
    + intros g F. assert (pre = l) as -> by (rewrite H1; c2). unfold WB. cbn [tot W fst snd]. lia.
Qed.
Lemma walk_skip x y evs B2 : forall B1 s l, s < y -> (forall w, In w evs -> y <= yw w) -> (forall b, In b B1 -> ev (snd b) x < y) -> walk x s l (B1 ++ B2) evs ->
  (exists s', s' < y /\ walk x s' (lastc l (map snd B1)) B2 evs) /\ forall g F, WB g F B1 = W g F l (map snd B1).
Proof.
  induction B1 as [|[pre e] B1 IH]; intros s l Hs He Hb H; [split; [exists s; auto|reflexivity]|].
  cbn [app map lastc snd walk] in *. destruct H as [H1 [H2 H3]]. pose proof (Hb (pre, e) (or_introl eq_refl)) as Hh. cbn [snd] in Hh. unfold ds in H1.
  rewrite (csum_zero _ evs) in H1 by (intros w I; specialize (He w I); assert ((s <? yw w) && (yw w <? ev e x) = false) as -> by lia; reflexivity).
  assert (pre = l) as -> by (rewrite H1; c2). destruct (IH (ev e x) (e_cnt e) Hh He (fun b I => Hb b (or_intror I)) H3) as [A1 A2]. split; [exact A1|].
  intros g F. unfold WB in *. cbn [tot W fst snd]. rewrite A2. reflexivity.
Qed.

Lemma gather_spec l : forall w w' rest, gather w l = (w', rest) -> exists evy, w :: l = evy ++ rest /\ n_pt w' = n_pt w /\ (forall u, In u evy -> yw u = yw w) /\
  n_0 w' = csum n_0 evy /\ n_1 w' = csum n_1 evy /\ n_2 w' = csum n_2 evy /\ n_3 w' = csum n_3 evy /\ (length rest < length (w :: l))%nat /\ match rest with u :: _ => yw u <> yw w | [] => True end.
Proof.
  induction l as [|u l IH]; intros w w' rest H; cbn [gather] in H.
  - assert (w' = w /\ rest = []) as [-> ->] by (split; congruence). exists [w]. split; [reflexivity|]. split; [reflexivity|]. split; [intros a [<-|[]]; reflexivity|]. cbn [csum fold_right]. rewrite !cadd_0_r. repeat split. cbn. lia.
  - destruct (py (n_pt u) =? py (n_pt w)) eqn:E.
    + apply IH in H as [evy [H1 [H2 [H3 [N0 [N1 [N2 [N3 [H4 H5]]]]]]]]]. destruct evy as [|a evy]; [exfalso; cbn [app] in H1; subst rest; cbn in H4; lia|]. cbn [app] in H1. assert (a = ev_add w u /\ l = evy ++ rest) as [-> ->] by (split; congruence).
      exists (w :: u :: evy). split; [reflexivity|]. split; [exact H2|]. split; [intros b [<-|[<-|B]]; [reflexivity|unfold yw; lia|specialize (H3 b (or_intror B)); exact H3]|].
      rewrite N0, N1, N2, N3. rewrite !csum_cons. cbn [ev_add n_0 n_1 n_2 n_3]. repeat split; try c2. { cbn in *. lia. } exact H5.
    + assert (w' = w /\ rest = u :: l) as [-> ->] by (split; congruence). exists [w]. split; [reflexivity|]. split; [reflexivity|]. split; [intros a [<-|[]]; reflexivity|]. cbn [csum fold_right]. rewrite !cadd_0_r. repeat split. { cbn. lia. } unfold yw. lia.
Qed.
Lemma esum_point g F p evy w : additive g -> (forall u, In u evy -> n_pt u = p) -> n_pt w = p -> n_0 w = csum n_0 evy -> n_1 w = csum n_1 evy -> n_2 w = csum n_2 evy -> esum g F evy = esum1 g F w.
Proof.
  intros A Hp Hw N0 N1 N2. unfold esum1. rewrite N0, N1, N2, Hw, !(csum_g g _ _ A). unfold esum. clear N0 N1 N2. induction evy as [|u evy IH]; [cbn; lia|]. cbn [tot]. rewrite IH by (intros b B; apply Hp; right; exact B). unfold esum1. rewrite (Hp u (or_introl eq_refl)). lia.
Qed.
Lemma sorted_split (f : ann -> Z) y (B : list ann) : StronglySorted (fun a b => f a < f b) B -> exists B1 BG BU, B = B1 ++ BG ++ BU /\ (forall b, In b B1 -> f b < y) /\ (forall b, In b BG -> f b = y) /\ (length BG <= 1)%nat /\ (forall b, In b BU -> y < f b).
Proof.
  induction 1 as [|a B S IH Fo]; [exists [], [], []; cbn; repeat split; auto; intros b []|]. rewrite Forall_forall in Fo. destruct (Z.lt_trichotomy (f a) y) as [L|[E|G]].
  - destruct IH as [B1 [BG [BU [-> [H1 H2]]]]]. exists (a :: B1), BG, BU. split; [reflexivity|]. split; [intros b [<-|I]; auto|exact H2].
  - exists [], [a], B. cbn [app]. split; [reflexivity|]. split; [intros b []|]. split; [intros b [<-|[]]; exact E|]. split; [cbn; lia|]. intros b I. specialize (Fo b I). lia.
  - exists [], [], (a :: B). cbn [app]. split; [reflexivity|]. split; [intros b []|]. split; [intros b []|]. split; [cbn; lia|]. intros b [<-|I]; [exact G|]. specialize (Fo b I). lia.
Qed.
Lemma strong_map {A B : Type} (f : A -> B) (R : B -> B -> Prop) l : StronglySorted R (map f l) <-> StronglySorted (fun a b => R (f a) (f b)) l.
Proof. induction l as [|a l IH]; cbn [map]; [split; constructor|]. split; intros H; inversion H as [|? ? H1 H2]; subst; constructor; try (apply IH; assumption); rewrite Forall_map in *; assumption. Qed.

Section scan.
  Context (keep : cnt2 -> bool).
  Record pinv (x s : Z) (Lo : list elem) (B : list ann) (l v : cnt2) (evs : list event) : Prop := {
    pi_lo : forall a, In a Lo -> rise_ok a /\ e_x a <= x;
    pi_b : forall b, In b B -> rise_ok (snd b) /\ e_x (snd b) < x;
    pi_slo : StronglySorted (after x) Lo;
    pi_sb : StronglySorted (fun a b => ev a x < ev b x) (map snd B);
    pi_lob : forall a b, In a Lo -> In b B -> ev a x < ev (snd b) x;
    pi_x : forall w, In w evs -> px (n_pt w) = x;
    pi_y : StronglySorted (fun a b => yw a <= yw b) evs;
    pi_low : forall a w, In a Lo -> In w evs -> ev a x < yw w;
    pi_below : forall b, In b B -> s < ev (snd b) x;
    pi_beloww : forall w, In w evs -> s < yw w;
    pi_walk : walk x s l B evs;
    pi_last : lastc cz Lo = cadd l v;
    pi_v : cadd v (csum n_3 evs) = cz }.

  (* what a column does *)
  Definition column_ok (x : Z) (L : list elem) : Prop := (forall a, In a L -> rise_ok a /\ e_x a <= x) /\ StronglySorted (after x) L.
  Lemma process_good fuel : forall x s Lo B l v prev nxt evs Q gone AA,
    (length evs + length B < fuel)%nat -> pinv x s Lo B l v evs -> vinv x gone l AA B evs -> chain (guard x Q) (Lo ++ map snd B) -> (v <> cz -> px prev = x /\ nxt = hd_error (map snd B)) ->
    good (process keep fuel x (Lo ++ map snd B) v prev nxt evs) (fun t => let '(L', ps, o) := t in
      column_ok x L' /\ aheads x ps /\ at_x x o /\ chain (guard x (ps ++ Q)) L' /\
      (forall g F, additive g -> W g F cz L' = W g F cz Lo + WB g F B + esum g F evs) /\
      (forall F, osum F o = W (keepz keep) F cz L' - W (keepz keep) F cz Lo - WB (keepz keep) F B) /\
      (forall H, vsum H o = (keepz keep (cadd l v) - keepz keep l) * H (py prev) + W (keepz keep) (onh x H) cz L' - W (keepz keep) (onh x H) cz Lo - W (keepz keep) (onh x H) l AA) /\
      vsum (fun _ => 1) o = 0).
  Proof.
    induction fuel as [|fuel IH]; intros x s Lo B l v prev nxt evs Q gone AA Hf PI VI HC HN; [lia|]. destruct PI. destruct evs as [|w0 evs0].
    - cbn [process good]. assert (v = cz) as -> by (cbn [csum fold_right] in pi_v0; rewrite cadd_0_r in pi_v0; exact pi_v0). assert (l = lastc cz Lo) as El by (rewrite pi_last0; c2).
      set (y := fold_right (fun b m => Z.max (ev (snd b) x + 1) m) (s + 1) B).
      assert (Hy : s < y /\ forall b, In b B -> ev (snd b) x < y).
      { unfold y. clear. induction B as [|b B IH]; cbn [fold_right]; [split; [lia|intros b []]|]. destruct IH as [H1 H2]. split; [lia|]. intros c [<-|C]; [lia|]. specialize (H2 c C). lia. }
      destruct Hy as [Hy1 Hy2]. rewrite <- (app_nil_r B) in pi_walk0. destruct (walk_skip x y [] [] B s l Hy1 ltac:(intros w []) Hy2 pi_walk0) as [_ HW].
      split; [split|]. { intros a A. apply in_app_or in A as [A|A]; [auto|]. apply in_map_iff in A as [b [<- Bb]]. destruct (pi_b0 b Bb). split; [assumption|lia]. }
      { apply strong_app. split; [exact pi_slo0|]. split; [revert pi_sb0; apply strong_impl; intros; left; assumption|]. intros a b A Bb. apply in_map_iff in Bb as [c [<- Bb]]. left. auto. }
      split; [intros p []|]. split; [intros p []|]. split; [exact HC|]. split.
      + intros g F A. rewrite W_app, HW, El. unfold esum. cbn [tot]. lia.
      + split; [intros F; rewrite W_app, HW, El; unfold osum; cbn [tot]; lia|]. split; [|reflexivity]. intros H.
        assert (map snd B = AA) as ->. { rewrite (vi_b _ _ _ _ _ _ VI), annl_map. apply filter_all. intros a I. apply negb_true_iff, not_true_iff_false. intros G. destruct (vi_e _ _ _ _ _ _ VI a I G) as [w [[] _]]. }
        rewrite W_app, <- El, cadd_0_r. unfold vsum. cbn [tot]. lia.
    - cbn [process]. set (evs := w0 :: evs0) in *.
      set (sel := match nxt with Some e => _ | None => _ end). destruct sel as [vx rest] eqn:Hsel.
      (* the vertex, the events that make it up, the elements that are passed, that end there *)
      assert (V : exists evy B1 BG BU, evs = evy ++ rest /\ (forall u, In u evy -> n_pt u = n_pt vx) /\ n_0 vx = csum n_0 evy /\ n_1 vx = csum n_1 evy /\ n_2 vx = csum n_2 evy /\ n_3 vx = csum n_3 evy /\
        px (n_pt vx) = x /\ s < yw vx /\ (forall u, In u rest -> yw vx < yw u) /\ B = B1 ++ BG ++ BU /\ (v = cz \/ B1 = []) /\ (forall b, In b B1 -> ev (snd b) x < yw vx) /\ (forall b, In b BG -> ev (snd b) x = yw vx) /\ (length BG <= 1)%nat /\ (forall b, In b BU -> yw vx < ev (snd b) x) /\
        (forall a, In a Lo -> ev a x < yw vx) /\ (length rest + length BU < length evs + length B)%nat).
      { assert (SB : StronglySorted (fun a b : ann => ev (snd a) x < ev (snd b) x) B) by exact (proj1 (strong_map snd (fun a b => ev a x < ev b x) B) pi_sb0).
        assert (GA : (v = cz \/ forall b, In b B -> yw w0 <= ev (snd b) x) -> gather w0 evs0 = (vx, rest) -> exists evy B1 BG BU, evs = evy ++ rest /\ (forall u, In u evy -> n_pt u = n_pt vx) /\ n_0 vx = csum n_0 evy /\ n_1 vx = csum n_1 evy /\ n_2 vx = csum n_2 evy /\ n_3 vx = csum n_3 evy /\
        px (n_pt vx) = x /\ s < yw vx /\ (forall u, In u rest -> yw vx < yw u) /\ B = B1 ++ BG ++ BU /\ (v = cz \/ B1 = []) /\ (forall b, In b B1 -> ev (snd b) x < yw vx) /\ (forall b, In b BG -> ev (snd b) x = yw vx) /\ (length BG <= 1)%nat /\ (forall b, In b BU -> yw vx < ev (snd b) x) /\
        (forall a, In a Lo -> ev a x < yw vx) /\ (length rest + length BU < length evs + length B)%nat).
        { intros Hv Hg. apply gather_spec in Hg as [evy [G1 [G2 [G3 [N0 [N1 [N2 [N3 [G4 G5]]]]]]]]]. fold evs in G1, G4. destruct (sorted_split (fun b => ev (snd b) x) (yw w0) B SB) as [B1 [BG [BU [EB [HB1 [HBG [HL HBU]]]]]]].
          assert (Ey : yw vx = yw w0) by (unfold yw; rewrite G2; reflexivity). exists evy, B1, BG, BU. rewrite Ey.
          assert (W0 : In w0 evs) by (left; reflexivity).
          split; [exact G1|]. split. { intros u U. rewrite G2. assert (In u evs) as Ue by (rewrite G1; apply in_or_app; left; exact U). specialize (G3 u U). pose proof (pi_x0 u Ue). pose proof (pi_x0 w0 W0). unfold yw in G3. destruct (n_pt u), (n_pt w0). cbn in *. congruence. }
          split; [exact N0|]. split; [exact N1|]. split; [exact N2|]. split; [exact N3|]. split; [rewrite G2; apply pi_x0, W0|]. split; [apply pi_beloww0, W0|].
          split. { rewrite G1 in pi_y0. apply strong_app in pi_y0 as [Y1 [Y2 Y3]]. intros u U. destruct rest as [|u0 rest]; [destruct U|]. inversion Y2 as [|? ? Y4 Y5]; subst. rewrite Forall_forall in Y5. assert (yw w0 <= yw u0). { destruct evy as [|a evy]; [cbn [app] in G1; rewrite <- G1 in G4; cbn in G4; lia|]. unfold evs in G1. cbn [app] in G1. assert (w0 = a) as -> by congruence. apply Y3; left; reflexivity. } destruct U as [<-|U]; [lia|]. specialize (Y5 u U). lia. }
          split; [exact EB|]. split. { destruct Hv as [Hv|Hv]; [left; exact Hv|right]. destruct B1 as [|b B1]; [reflexivity|]. specialize (HB1 b (or_introl eq_refl)). specialize (Hv b ltac:(rewrite EB; left; reflexivity)). cbv beta in HB1. lia. }
          split; [exact HB1|]. split; [exact HBG|]. split; [exact HL|]. split; [exact HBU|]. split; [intros a A; apply pi_low0; [exact A|exact W0]|]. rewrite EB, !app_length. lia. }
        unfold sel in Hsel. destruct (ceqb v cz) eqn:Ev.
        - apply ceqb_iff in Ev. apply GA; [left; exact Ev|]. destruct nxt as [e|]; exact Hsel.
        - assert (v <> cz) as Nv by (intros E; apply ceqb_iff in E; congruence). destruct (HN Nv) as [_ Hnx]. destruct B as [|[pre e] B].
          + rewrite Hnx in Hsel. cbn [map hd_error] in Hsel. apply GA; [right; intros b []|exact Hsel].
          + rewrite Hnx in Hsel. cbn [map hd_error snd negb andb] in Hsel. destruct (ev e x <? py (n_pt w0)) eqn:L.
            * assert (vx = mk_ev (mk_pt x (ev e x)) cz cz cz cz /\ rest = evs) as [-> ->] by (split; congruence). exists [], [], [(pre, e)], B. inversion SB as [|? ? S1 S2]; subst. rewrite Forall_forall in S2. change (yw (mk_ev (mk_pt x (ev e x)) cz cz cz cz)) with (ev e x). cbn [n_pt n_0 n_1 n_2 n_3 px py app].
              split; [reflexivity|]. split; [intros u []|]. repeat (split; [reflexivity|]). split; [apply (pi_below0 (pre, e)); left; reflexivity|].
              split. { intros u U. inversion pi_y0 as [|? ? _ Y5]; subst. rewrite Forall_forall in Y5. destruct U as [<-|U]; [unfold yw; lia|specialize (Y5 u U); unfold yw in *; lia]. }
              split; [reflexivity|]. split; [right; reflexivity|]. split; [intros b []|]. split; [intros b [<-|[]]; reflexivity|]. split; [cbn; lia|]. split; [exact S2|]. split; [intros a A; apply (pi_lob0 a (pre, e)); [exact A|left; reflexivity]|]. cbn. lia.
            * apply GA; [right|exact Hsel]. inversion SB as [|? ? S1 S2]; subst. rewrite Forall_forall in S2. intros b [<-|Bb]; [cbn [snd]; unfold yw; lia|]. specialize (S2 b Bb). cbn [snd] in S2. unfold yw. lia. }
      clear sel Hsel. destruct V as [evy [B1 [BG [BU [Eev [Pevy [N0 [N1 [N2 [N3 [Vx [Vs [Vrest [EB [Vv [HB1 [HBG [LG [HBU [HLo Hlen]]]]]]]]]]]]]]]]]]]].
      (* the elements that are passed *)
      assert (Hevs : forall w, In w evs -> yw vx <= yw w) by (intros w Hw; rewrite Eev in Hw; apply in_app_or in Hw as [Hw|Hw]; [unfold yw; rewrite (Pevy w Hw); lia|specialize (Vrest w Hw); lia]).
      rewrite EB in pi_walk0. destruct (walk_skip x (yw vx) evs (BG ++ BU) B1 s l Vs Hevs HB1 pi_walk0) as [[s' [Hs' Wk]] HW1].
      set (l' := lastc l (map snd B1)) in *. set (lo := Lo ++ map snd B1).
      assert (Hlast : lastc cz lo = cadd l' v).
      { unfold lo, l'. rewrite lastc_app, pi_last0. destruct Vv as [-> | ->]; [|reflexivity]. assert (cadd l cz = l) as -> by c2. symmetry. c2. }
      assert (SBU : StronglySorted (fun a b => ev a x < ev b x) (map snd BU)) by (rewrite EB, !map_app in pi_sb0; apply strong_app in pi_sb0 as [_ [X0 _]]; apply strong_app in X0 as [_ [X0 _]]; exact X0).
      rewrite Eev in Wk. destruct (walk_step x s' l' (yw vx) evy rest BG BU Hs' ltac:(intros w Hw; unfold yw; rewrite (Pevy w Hw); reflexivity) Vrest LG HBG HBU SBU Wk) as [Wk' HW2].
      assert (EL : Lo ++ map snd B = lo ++ map snd BG ++ map snd BU) by (unfold lo; rewrite EB, !map_app, <- !app_assoc; reflexivity).
      rewrite EL in *. assert (IB : forall b, In b B1 \/ In b BG \/ In b BU -> In b B) by (intros b Hb; rewrite EB; apply in_or_app; destruct Hb as [Hb|[Hb|Hb]]; [left; exact Hb|right; apply in_or_app; left; exact Hb|right; apply in_or_app; right; exact Hb]).
      assert (Hlo : forall a, In a lo -> rise_ok a /\ e_x a <= x /\ ev a x < yw vx).
      { intros a A. unfold lo in A. apply in_app_or in A as [A|A]; [destruct (pi_lo0 a A); auto|]. apply in_map_iff in A as [b [<- Bb]]. destruct (pi_b0 b (IB b (or_introl Bb))). specialize (HB1 b Bb). split; [assumption|split; lia]. }
      assert (Slo : StronglySorted (after x) lo).
      { unfold lo. apply strong_app. split; [exact pi_slo0|]. split; [rewrite EB, map_app in pi_sb0; apply strong_app in pi_sb0 as [X0 _]; revert X0; apply strong_impl; intros; left; assumption|]. intros a b A Bb. apply in_map_iff in Bb as [c [<- Bb]]. left. apply pi_lob0; [exact A|apply IB; left; exact Bb]. }
      assert (Ecur : csub (lastc cz lo) v = l') by (rewrite Hlast; c2).
      eapply good_bind; [apply (step_good keep x lo (map snd BG) (map snd BU) v prev vx Q Vx)|].
      { intros a A. destruct (Hlo a A) as [? [? ?]]. auto. }
      { intros a A. apply in_map_iff in A as [b [<- Bb]]. destruct (pi_b0 b (IB b (or_intror (or_introl Bb)))). specialize (HBG b Bb). auto. }
      { rewrite map_length. exact LG. }
      { intros a A. apply in_map_iff in A as [b [<- Bb]]. destruct (pi_b0 b (IB b (or_intror (or_intror Bb)))). specialize (HBU b Bb). auto. }
      { exact SBU. } { exact HC. } { intros Nv. apply (HN Nv). }
      intros [[[L1 ps1] o1] nx1] [-> [-> [S1 [S2 [S3 [S4 S5]]]]]].
      assert (VI' := VI). rewrite EB, Eev in VI'. destruct (vinv_step x gone l AA (yw vx) B1 BG BU evy rest VI') as [AG [AU [EA [HAG [LAG VIU]]]]]; [intros w Hw; unfold yw; rewrite (Pevy w Hw); reflexivity|exact Vrest|exact HB1|exact HBG|exact HBU|].
      fold l' in LAG, VIU.
      set (fr := fresh vx v (lastc cz lo) (map snd BG)) in *.
      assert (RG : forall e, In e (map snd BG) -> rise_ok e /\ ev e x = py (n_pt vx)) by (intros e E; apply in_map_iff in E as [b [<- Bb]]; destruct (pi_b0 b (IB b (or_intror (or_introl Bb)))); specialize (HBG b Bb); auto).
      assert (Hfr : forall a, In a fr -> rise_ok a /\ e_x a <= x /\ ev a x = yw vx) by (intros a A; apply fresh_in in A as [A1 [A2 A3]]; split; [exact A3|]; split; [lia|]; unfold ev; rewrite A1, A2, Vx; unfold yw; ring).
      assert (Efl : lastc (lastc cz lo) fr = cadd (cadd (lastc l' (map snd BG)) (csum delta evy)) (cadd v (n_3 vx))).
      { unfold fr. rewrite fresh_last; [|rewrite map_length; exact LG|intros e E; apply (RG e E)]. rewrite Ecur, N0, N1, N2, N3. assert (csum delta evy = csub (cadd (cadd (csum n_0 evy) (csum n_1 evy)) (csum n_2 evy)) (csum n_3 evy)) as ->; [|c2]. clear. induction evy as [|u evy IHe]; [reflexivity|]. rewrite !csum_cons, IHe. unfold delta. c2. }
      assert (EL1 : lo ++ fr ++ map snd BU = (lo ++ fr) ++ map snd BU) by (rewrite app_assoc; reflexivity). rewrite EL1 in *.
      eapply good_bind; [apply (IH x (yw vx) (lo ++ fr) BU (cadd (lastc l' (map snd BG)) (csum delta evy)) (cadd v (n_3 vx)) (n_pt vx) (hd_error (map snd BU)) rest (ps1 ++ Q) gone AU); [lia| |rewrite <- LAG; exact VIU|exact S3|intros _; split; [exact Vx|reflexivity]]|].
      { assert (IR : forall u, In u rest -> In u evs) by (intros u U; rewrite Eev; apply in_or_app; right; exact U). constructor.
        - intros a A. apply in_app_or in A as [A|A]; [destruct (Hlo a A) as [? [? ?]]; auto|destruct (Hfr a A) as [? [? ?]]; auto].
        - intros b Bb. apply pi_b0, IB. auto.
        - apply strong_app. split; [exact Slo|]. split; [apply fresh_sorted, Vx|]. intros a b A Bb. destruct (Hlo a A) as [_ [_ ?]], (Hfr b Bb) as [_ [_ ?]]. left. lia.
        - exact SBU.
        - intros a b A Bb. specialize (HBU b Bb). apply in_app_or in A as [A|A]; [destruct (Hlo a A) as [? [? ?]]; lia|destruct (Hfr a A) as [? [? ?]]; lia].
        - intros w U. apply pi_x0, IR, U.
        - rewrite Eev in pi_y0. apply strong_app in pi_y0 as [_ [Y _]]. exact Y.
        - intros a w A U. specialize (Vrest w U). apply in_app_or in A as [A|A]; [destruct (Hlo a A) as [? [? ?]]; lia|destruct (Hfr a A) as [? [? ?]]; lia].
        - exact HBU.
        - exact Vrest.
        - exact Wk'.
        - rewrite lastc_app. exact Efl.
        - rewrite Eev, csum_app in pi_v0. rewrite N3. etransitivity; [|exact pi_v0]. c2. }
      intros [[L2 ps2] o2] [T1 [T2 [T3 [T4 [T5 [T6 [T7 T8]]]]]]]. cbn [good]. split; [exact T1|]. split; [apply aheads_app; assumption|]. split; [apply at_x_app; assumption|]. split; [rewrite <- app_assoc; exact T4|].
      assert (WBB : forall g F, WB g F B = WB g F B1 + WB g F BG + WB g F BU) by (intros g F; rewrite EB; unfold WB; rewrite !tot_app; lia).
      assert (Wlo : forall g F, W g F cz lo = W g F cz Lo + WB g F B1).
      { intros g F. unfold lo. rewrite W_app, HW1, pi_last0. destruct Vv as [-> | ->]; [assert (cadd l cz = l) as -> by c2; reflexivity|reflexivity]. }
      split.
      + intros g F A. rewrite (T5 g F A), W_app, Wlo, WBB, HW2, Eev. unfold fr. rewrite (fresh_W g F x vx v (lastc cz lo) (map snd BG) A Vx); [|rewrite map_length; exact LG|exact RG]. rewrite Ecur. unfold esum. rewrite tot_app. fold (esum g F evy). rewrite (esum_point g F (n_pt vx) evy vx A Pevy eq_refl N0 N1 N2). lia.
      + split; [intros F; rewrite osum_app, T6, S4, WBB, W_app, Wlo, HW2, Ecur; lia|]. split; [|rewrite vsum_app, T8, S5; lia].
        intros H. rewrite vsum_app, T7, S5, W_app, Wlo, HW1, Ecur, <- Efl, EA, !W_app. fold l'.
        rewrite (W_tele _ (onh x H) (H (yw vx)) fr) by (intros a I; rewrite onh_line; destruct (Hfr a I) as [_ [_ ->]]; reflexivity).
        rewrite (W_tele _ (onh x H) (H (yw vx)) AG) by (intros a I; rewrite onh_line, (HAG a I); reflexivity).
        rewrite LAG. assert (DD : keepz keep (lastc cz lo) - keepz keep l' = keepz keep (cadd l v) - keepz keep l).
        { rewrite Hlast. unfold l'. destruct Vv as [-> | ->]; [rewrite !cadd_0_r; lia|reflexivity]. }
        change (py (n_pt vx)) with (yw vx). rewrite <- DD. lia.
  Qed.
End scan.
