(* The sweep for 45-degree polygons: sums over the scan line, its order, the queue of
   crossings. *)
From Verif Require Import Base Units Scan90Spec Poly90Spec Poly90Model ArbSpec Ins45Spec Ins45Model Scan45Model.
From Coq Require Import Sorting.Sorted.

(* ---------- results ---------- *)
Definition good {A : Type} (r : res A) (P : A -> Prop) : Prop :=
  match r with Fine a => P a | Throw => True | Bad => False end.
Lemma good_bind {A B : Type} (r : res A) (f : A -> res B) P R : good r P -> (forall a, P a -> good (f a) R) -> good (rbind r f) R.
Proof. destruct r; cbn [good rbind]; auto. Qed.
Lemma good_impl {A : Type} (r : res A) (P R : A -> Prop) : good r P -> (forall a, P a -> R a) -> good r R.
Proof. destruct r; cbn [good]; auto. Qed.

(* ---------- lists ---------- *)
Lemma span_split {A : Type} (f : A -> bool) l1 l2 : (forall a, In a l1 -> f a = true) -> (match l2 with a :: _ => f a = false | [] => True end) -> span f (l1 ++ l2) = (l1, l2).
Proof.
  intros H1 H2. induction l1 as [|a l IH]; cbn [app span].
  - destruct l2 as [|b l]; [reflexivity|]. cbn [span]. rewrite H2. reflexivity.
  - rewrite (H1 a (or_introl eq_refl)), IH; [reflexivity|]. intros b B. apply H1. right. exact B.
Qed.
Lemma span_spec {A : Type} (f : A -> bool) l : forall u v, span f l = (u, v) -> l = u ++ v /\ (forall a, In a u -> f a = true) /\ match v with a :: _ => f a = false | [] => True end.
Proof.
  induction l as [|a l IH]; intros u v H; cbn [span] in H; [assert (u = [] /\ v = []) as [-> ->] by (split; congruence); cbn; auto|]. destruct (f a) eqn:F.
  - destruct (span f l) as [u' v'] eqn:S. assert (u = a :: u' /\ v = v') as [-> ->] by (split; congruence). destruct (IH _ _ eq_refl) as [-> [B C]]. split; [reflexivity|]. split; [|exact C]. intros b [<-|X]; auto.
  - assert (u = [] /\ v = a :: l) as [-> ->] by (split; congruence). split; [reflexivity|]. split; [intros b []|exact F].
Qed.
Lemma last_opt_app {A : Type} (l : list A) a : last_opt (l ++ [a]) = Some a.
Proof. induction l as [|b l IH]; [reflexivity|]. cbn [app last_opt]. rewrite IH. destruct (l ++ [a]) eqn:E; [destruct l; discriminate|reflexivity]. Qed.
Lemma last_opt_in {A : Type} (l : list A) a : last_opt l = Some a -> exists l', l = l' ++ [a].
Proof. destruct l as [|b l] using rev_ind; [discriminate|]. rewrite last_opt_app. intros H. exists l. congruence. Qed.
Lemma lastc_app d a b : lastc d (a ++ b) = lastc (lastc d a) b.
Proof. revert d. induction a as [|e a IH]; intros d; [reflexivity|]. cbn [app lastc]. apply IH. Qed.

Section chain.
  Context {A : Type} (R : A -> A -> Prop).
  Fixpoint chain (l : list A) : Prop :=
    match l with [] => True | a :: l' => match l' with [] => True | b :: _ => R a b end /\ chain l' end.
  Definition link (u v : option A) : Prop := match u, v with Some a, Some b => R a b | _, _ => True end.
  Lemma chain_app a b : chain (a ++ b) <-> chain a /\ chain b /\ link (last_opt a) (hd_error b).
  Proof.
    induction a as [|u a IH]; [cbn; tauto|]. destruct a as [|w a].
    - cbn [app chain last_opt]. destruct b as [|c b]; cbn [chain hd_error link]; tauto.
    - change (chain ((u :: w :: a) ++ b)) with (R u w /\ chain ((w :: a) ++ b)). change (chain (u :: w :: a)) with (R u w /\ chain (w :: a)). change (last_opt (u :: w :: a)) with (last_opt (w :: a)). rewrite IH. tauto.
  Qed.
  Lemma chain_strong l : (forall a b c, R a b -> R b c -> R a c) -> chain l -> StronglySorted R l.
  Proof.
    intros T. induction l as [|a l IH]; intros C; [constructor|]. destruct C as [C1 C2]. specialize (IH C2). constructor; [exact IH|]. destruct l as [|b l]; [constructor|]. constructor; [exact C1|]. inversion IH as [|? ? _ F]; subst. revert F. apply Forall_impl. intros c. apply T, C1.
  Qed.
  Lemma strong_app a b : StronglySorted R (a ++ b) <-> StronglySorted R a /\ StronglySorted R b /\ (forall u w, In u a -> In w b -> R u w).
  Proof.
    induction a as [|u a IH]; [cbn; split; [intros H; split; [constructor|split; [exact H|intros ? ? []]]|tauto]|]. cbn [app]. split.
    - intros H. inversion H as [|? ? H1 H2]; subst. apply IH in H1 as [A1 [A2 A3]]. rewrite Forall_app in H2. destruct H2 as [F1 F2]. split; [constructor; assumption|]. split; [exact A2|]. intros p q [<-|P] Q; [rewrite Forall_forall in F2; auto|auto].
    - intros [H1 [H2 H3]]. inversion H1 as [|? ? G1 G2]; subst. constructor; [apply IH; repeat split; auto; intros p q P Q; apply H3; [right; exact P|exact Q]|]. apply Forall_app. split; [exact G2|]. apply Forall_forall. intros q Q. apply H3; [left; reflexivity|exact Q].
  Qed.
  Lemma strong_chain l : StronglySorted R l -> chain l.
  Proof. induction 1 as [|a l S IH F]; [exact I|]. split; [|exact IH]. destruct l; [exact I|]. inversion F; assumption. Qed.
End chain.
Lemma chain_impl {A : Type} (R S : A -> A -> Prop) l : (forall a b, In a l -> In b l -> R a b -> S a b) -> chain R l -> chain S l.
Proof.
  induction l as [|a l IH]; intros H C; [exact I|]. destruct C as [C1 C2]. split; [|apply IH; [|exact C2]; intros u w U W; apply H; right; assumption]. destruct l as [|b l]; [exact I|]. apply H; [left; reflexivity|right; left; reflexivity|exact C1].
Qed.
Lemma chain_and {A : Type} (R S : A -> A -> Prop) l : chain R l -> chain S l -> chain (fun a b => R a b /\ S a b) l.
Proof. induction l as [|a l IH]; intros H C; [exact I|]. destruct H as [H1 H2], C as [C1 C2]. split; [|auto]. destruct l; auto. Qed.
Lemma strong_impl {A : Type} (R S : A -> A -> Prop) l : (forall a b, In a l -> In b l -> R a b -> S a b) -> StronglySorted R l -> StronglySorted S l.
Proof.
  intros H. induction 1 as [|a l SS IH F]; [constructor|]. constructor; [apply IH; intros u w U W; apply H; right; assumption|]. rewrite Forall_forall in *. intros b B. apply H; [left; reflexivity|right; exact B|apply F, B].
Qed.

(* ---------- sums ---------- *)
(* the line of an element: slope and ordinate at 0 *)
Definition line (e : elem) : Z * Z := (e_rise e, e_y e - e_rise e * e_x e).
Definition line_at (p : point) (r : Z) : Z * Z := (r, py p - r * px p).
Lemma line_ev e x : line e = line_at (mk_pt x (ev e x)) (e_rise e).
Proof. unfold line, line_at, ev. cbn [px py]. f_equal. ring. Qed.
Section wsum.
  Context (g : cnt2 -> Z) (F : Z * Z -> Z).
  Fixpoint W (d : cnt2) (l : list elem) : Z :=
    match l with [] => 0 | e :: l' => (g (e_cnt e) - g d) * F (line e) + W (e_cnt e) l' end.
  Lemma W_app d a b : W d (a ++ b) = W d a + W (lastc d a) b.
  Proof. revert d. induction a as [|e a IH]; intros d; [cbn; lia|]. cbn [app W lastc]. rewrite IH. lia. Qed.
  (* the elements that stay, the elements that are erased *)
  Context (gone : elem -> bool).
  Fixpoint WK (d : cnt2) (l : list elem) : Z :=
    match l with [] => 0 | e :: l' => (if gone e then 0 else (g (e_cnt e) - g d) * F (line e)) + WK (e_cnt e) l' end.
  Fixpoint WE (d : cnt2) (l : list elem) : Z :=
    match l with [] => 0 | e :: l' => (if gone e then (g (e_cnt e) - g d) * F (line e) else 0) + WE (e_cnt e) l' end.
  Lemma WK_app d a b : WK d (a ++ b) = WK d a + WK (lastc d a) b.
  Proof. revert d. induction a as [|e a IH]; intros d; [cbn; lia|]. cbn [app WK lastc]. rewrite IH. lia. Qed.
  Lemma WE_app d a b : WE d (a ++ b) = WE d a + WE (lastc d a) b.
  Proof. revert d. induction a as [|e a IH]; intros d; [cbn; lia|]. cbn [app WE lastc]. rewrite IH. lia. Qed.
  Lemma W_split d l : W d l = WK d l + WE d l.
  Proof. revert d. induction l as [|e a IH]; intros d; [reflexivity|]. cbn [W WK WE]. rewrite IH. destruct (gone e); lia. Qed.
  Lemma WE_none d l : (forall e, In e l -> gone e = false) -> WE d l = 0.
  Proof. revert d. induction l as [|e a IH]; intros d H; [reflexivity|]. cbn [WE]. rewrite (H e (or_introl eq_refl)), IH; [reflexivity|]. intros b B. apply H. right. exact B. Qed.
  Lemma WE_all d l : (forall e, In e l -> gone e = true) -> WE d l = W d l.
  Proof. revert d. induction l as [|e a IH]; intros d H; [reflexivity|]. cbn [W WE]. rewrite (H e (or_introl eq_refl)), IH; [reflexivity|]. intros b B. apply H. right. exact B. Qed.
  Lemma WK_none d l : (forall e, In e l -> gone e = false) -> WK d l = W d l.
  Proof. intros H. rewrite W_split, WE_none by exact H. lia. Qed.
  Lemma WK_all d l : (forall e, In e l -> gone e = true) -> WK d l = 0.
  Proof. intros H. pose proof (W_split d l). rewrite WE_all in H0 by exact H. lia. Qed.
  (* events *)
  Definition esum1 (w : event) : Z := g (n_0 w) * F (line_at (n_pt w) (-1)) + g (n_1 w) * F (line_at (n_pt w) 0) + g (n_2 w) * F (line_at (n_pt w) 1).
  Definition esum (l : list event) : Z := tot esum1 l.
End wsum.
(* output *)
Definition osum1 (F : Z * Z -> Z) (o : out45) : Z :=
  let '(p, (r, c)) := o in if (-1 <=? r) && (r <=? 1) then c * F (line_at p r) else 0.
Definition osum (F : Z * Z -> Z) (l : list out45) : Z := tot (osum1 F) l.
(* additive functions of counts *)
Definition additive (g : cnt2 -> Z) : Prop := g cz = 0 /\ (forall a b, g (cadd a b) = g a + g b) /\ (forall a b, g (csub a b) = g a - g b).
Lemma fst_additive : additive fst.
Proof. repeat split. Qed.
Lemma snd_additive : additive snd.
Proof. repeat split. Qed.
Lemma cnt2_eq (a b : cnt2) : fst a = fst b -> snd a = snd b -> a = b.
Proof. destruct a, b. cbn. congruence. Qed.
Lemma ceqb_iff a b : ceqb a b = true <-> a = b.
Proof. unfold ceqb. rewrite andb_true_iff, !Z.eqb_eq. split; [intros [A B]; apply cnt2_eq; assumption|intros ->; auto]. Qed.
Ltac c2 := apply cnt2_eq; unfold cadd, csub, cz in *; cbn [fst snd] in *; lia.

(* ---------- order ---------- *)
Definition rise_ok (e : elem) : Prop := -1 <= e_rise e <= 1.
Lemma ev_move e x x' : ev e x' = ev e x + e_rise e * (x' - x).
Proof. unfold ev. ring. Qed.
(* just after x, just before x *)
Definition after (x : Z) (a b : elem) : Prop := ev a x < ev b x \/ ev a x = ev b x /\ e_rise a < e_rise b.
Definition before (x : Z) (a b : elem) : Prop := ev a x < ev b x \/ ev a x = ev b x /\ e_rise a > e_rise b.
Lemma after_trans x a b c : after x a b -> after x b c -> after x a c.
Proof. unfold after. lia. Qed.
Lemma before_trans x a b c : before x a b -> before x b c -> before x a c.
Proof. unfold before. lia. Qed.
Lemma less_after x a b : less_el x a b = true <-> after x a b.
Proof. unfold less_el, after. lia. Qed.
(* the crossing of two neighbours is in the queue, or the two points next to it *)
Definition guard (x : Z) (Q : list point) (lo hi : elem) : Prop :=
  e_rise lo <= e_rise hi \/
  exists X, x < X /\ (ev lo X = ev hi X /\ In (mk_pt X (ev lo X)) Q \/
    e_rise lo = 1 /\ e_rise hi = -1 /\ ev hi X = ev lo X + 1 /\ In (mk_pt X (ev lo X)) Q /\ In (mk_pt X (ev hi X)) Q).
Lemma guard_incl x Q Q' a b : (forall p, In p Q -> In p Q') -> guard x Q a b -> guard x Q' a b.
Proof. intros H [G|[X [L [[E I]|[A [B [C [D F]]]]]]]]; [left; exact G|right; exists X; split; [exact L|left; auto]|right; exists X; split; [exact L|right; repeat split; auto]]. Qed.
Lemma half_odd d k : d = 2 * k + 1 -> d / 2 = k.
Proof. intros ->. symmetry. apply (Z.div_unique _ _ _ 1); lia. Qed.
Lemma sched_good x lo hi : rise_ok lo -> rise_ok hi -> (e_rise lo > e_rise hi -> ev lo x < ev hi x) ->
  good (sched x lo hi) (fun ps => guard x ps lo hi /\ forall p, In p ps -> x < px p).
Proof.
  unfold rise_ok. intros Rl Rh O. unfold sched, ahead. set (y1 := ev hi x) in *. set (y2 := ev lo x) in *.
  destruct ((e_rise lo =? 1) && (e_rise hi =? -1)) eqn:C1.
  - assert (e_rise lo = 1 /\ e_rise hi = -1) as [L H] by lia. specialize (O ltac:(lia)). rewrite (Z.quot_div_nonneg (y1 - y2) 2) by lia. destruct (Z.odd (y1 - y2)) eqn:P.
    + destruct (y1 - y2 =? 1) eqn:D; [exact I|]. assert (X : (x <? x + (y1 - y2) / 2) = true) by (apply Z.odd_spec in P; destruct P as [k P]; rewrite (half_odd _ _ P); lia).
      cbn [forallb px]. rewrite X. cbn [andb good]. split; [|intros p [<-|[<-|[]]]; cbn [px]; lia]. right. exists (x + (y1 - y2) / 2). split; [lia|]. right. rewrite (ev_move lo x), (ev_move hi x), L, H. fold y1 y2. split; [reflexivity|]. split; [reflexivity|].
      apply Z.odd_spec in P. destruct P as [k P]. assert (Q : (y1 - y2) / 2 = k) by (apply half_odd, P). rewrite Q in *. split; [lia|]. split; [left; f_equal; lia|right; left; f_equal; lia].
    + rewrite <- Z.negb_even in P. apply negb_false_iff in P. apply Z.even_spec in P. destruct P as [k P]. assert (Q : (y1 - y2) / 2 = k) by (rewrite P, Z.mul_comm; apply Z.div_mul; lia). rewrite Q. assert (X : (x <? x + k) = true) by lia. cbn [forallb px]. rewrite X. cbn [andb good]. split; [|intros p [<-|[]]; cbn [px]; lia].
      right. exists (x + k). split; [lia|]. left. rewrite (ev_move lo x), (ev_move hi x), L, H. fold y1 y2. split; [lia|]. left. f_equal. lia.
  - destruct ((e_rise lo =? 1) && (e_rise hi =? 0)) eqn:C2.
    + assert (e_rise lo = 1 /\ e_rise hi = 0) as [L H] by lia. specialize (O ltac:(lia)). cbn [forallb px]. assert (X : (x <? x + Z.abs (y1 - y2)) = true) by lia. rewrite X. cbn [andb good]. split; [|intros p [<-|[]]; cbn [px]; lia].
      right. exists (x + Z.abs (y1 - y2)). split; [lia|]. left. rewrite (ev_move lo x), (ev_move hi x), L, H. fold y1 y2. split; [lia|]. left. f_equal. lia.
    + destruct ((e_rise lo =? 0) && (e_rise hi =? -1)) eqn:C3.
      * assert (e_rise lo = 0 /\ e_rise hi = -1) as [L H] by lia. specialize (O ltac:(lia)). cbn [forallb px]. assert (X : (x <? x + Z.abs (y2 - y1)) = true) by lia. rewrite X. cbn [andb good]. split; [|intros p [<-|[]]; cbn [px]; lia].
        right. exists (x + Z.abs (y2 - y1)). split; [lia|]. left. rewrite (ev_move lo x), (ev_move hi x), L, H. fold y1 y2. split; [lia|]. left. f_equal. lia.
      * cbn [good]. split; [left; lia|intros p []].
Qed.
Definition orderly (x : Z) (a b : elem) : Prop := e_rise a > e_rise b -> ev a x < ev b x.
Lemma find_good x below e above : rise_ok e -> (forall b, below = Some b -> rise_ok b /\ orderly x b e) -> (forall b, above = Some b -> rise_ok b /\ orderly x e b) ->
  good (find_cross x below e above) (fun ps => link (guard x ps) below (Some e) /\ link (guard x ps) (Some e) above /\ forall p, In p ps -> x < px p).
Proof.
  intros R B A. unfold find_cross. eapply good_bind with (P := fun ps => link (guard x ps) below (Some e) /\ forall p, In p ps -> x < px p).
  - destruct below as [b|]; [destruct (B b eq_refl) as [B1 B2]; apply sched_good; assumption|]. split; [exact I|intros p []].
  - intros a [G1 G2]. eapply good_bind with (P := fun ps => link (guard x ps) (Some e) above /\ forall p, In p ps -> x < px p).
    + destruct above as [b|]; [destruct (A b eq_refl) as [B1 B2]; apply sched_good; assumption|]. split; [exact I|intros p []].
    + intros c [H1 H2]. cbn [good]. split; [|split].
      * destruct below as [b|]; [|exact I]. cbn [link] in *. eapply guard_incl; [|exact G1]. intros p P. apply in_or_app. left. exact P.
      * destruct above as [b|]; [|exact I]. cbn [link] in *. eapply guard_incl; [|exact H1]. intros p P. apply in_or_app. right. exact P.
      * intros p P. apply in_app_or in P as [P|P]; auto.
Qed.
Lemma lower_split x y L1 L2 : (forall a, In a L1 -> ev a x < y) -> (forall a, In a L2 -> y <= ev a x) -> lower x y (L1 ++ L2) = Fine (L1, L2).
Proof.
  intros H1 H2. unfold lower. rewrite span_split.
  - assert (forallb (fun a => y <=? ev a x) L2 = true) as -> by (apply forallb_forall; intros a A; specialize (H2 a A); lia). reflexivity.
  - intros a A. specialize (H1 a A). lia.
  - destruct L2 as [|b l]; [exact I|]. specialize (H2 b (or_introl eq_refl)). lia.
Qed.
(* the next stop: the order before it, and the crossings there are in the queue *)
Lemma to_before x nx Q a b : rise_ok a -> rise_ok b -> x < nx -> (forall p, In p Q -> nx <= px p) -> after x a b -> guard x Q a b ->
  before nx a b /\ (ev a nx = ev b nx -> In (mk_pt nx (ev a nx)) Q).
Proof.
  unfold rise_ok. intros Ra Rb L QQ A G. assert (Ea : ev a nx = ev a x + e_rise a * (nx - x)) by apply ev_move. assert (Eb : ev b nx = ev b x + e_rise b * (nx - x)) by apply ev_move. unfold before.
  destruct (Z_le_gt_dec (e_rise a) (e_rise b)) as [N|N].
  - assert (e_rise b - e_rise a = 0 \/ e_rise b - e_rise a = 1 \/ e_rise b - e_rise a = 2) as D by lia. assert (E : ev b nx - ev a nx = ev b x - ev a x + (e_rise b - e_rise a) * (nx - x)) by (rewrite Ea, Eb; ring). assert (ev a nx < ev b nx) by (unfold after in A; destruct D as [D|[D|D]]; rewrite D in E; lia). split; [left; assumption|lia].
  - destruct G as [G|[X [XL G]]]; [lia|]. assert (XN : nx <= X).
    { destruct G as [[_ I]|[_ [_ [_ [I _]]]]]; apply QQ in I; exact I. }
    assert (Xa : ev a X = ev a nx + e_rise a * (X - nx)) by apply ev_move. assert (Xb : ev b X = ev b nx + e_rise b * (X - nx)) by apply ev_move.
    assert (E : ev b nx - ev a nx = ev b X - ev a X + (e_rise a - e_rise b) * (X - nx)) by (rewrite Xa, Xb; ring). assert (e_rise a - e_rise b = 1 \/ e_rise a - e_rise b = 2) as D by lia.
    destruct G as [[EQ I]|[R1 [R2 [EQ [I J]]]]].
    + assert (X = nx \/ ev a nx < ev b nx) as [-> | LT] by (destruct D as [D|D]; rewrite D in E; lia); [split; [lia|intros _; exact I]|split; [lia|lia]].
    + assert (ev a nx < ev b nx) by (destruct D as [D|D]; rewrite D in E; lia). split; [left; assumption|lia].
Qed.
Lemma guard_later x nx Q a b : nx <= nx -> (forall p, In p Q -> nx <= px p) -> guard x Q a b -> ~ In (mk_pt nx (ev a nx)) Q -> guard nx (filter (fun p => negb (px p =? nx)) Q) a b.
Proof.
  intros _ QQ [G|[X [L G]]] N; [left; exact G|]. right. exists X.
  assert (XX : X <> nx) by (intros ->; destruct G as [[_ I]|[_ [_ [_ [I _]]]]]; contradiction).
  assert (XN : nx <= X) by (destruct G as [[_ I]|[_ [_ [_ [I _]]]]]; apply QQ in I; exact I). split; [lia|].
  assert (M : forall y, In (mk_pt X y) Q -> In (mk_pt X y) (filter (fun p => negb (px p =? nx)) Q)) by (intros y I; apply filter_In; split; [exact I|cbn [px]; lia]).
  destruct G as [[E I]|[A [B [C [D F]]]]]; [left; auto|right; repeat split; auto].
Qed.

(* ---------- the queue ---------- *)
Lemma q_min_le Q : match q_min Q with Some m => (forall p, In p Q -> m <= px p) /\ exists p, In p Q /\ px p = m | None => Q = [] end.
Proof.
  induction Q as [|p Q IH]; [reflexivity|]. cbn [q_min]. destruct (q_min Q) as [m|].
  - destruct IH as [A [q [B C]]]. split; [intros r [<-|R]; [lia|specialize (A r R); lia]|]. destruct (Z_le_gt_dec (px p) m); [exists p; split; [left; reflexivity|lia]|exists q; split; [right; exact B|lia]].
  - subst Q. split; [intros r [<-|[]]; lia|exists p; split; [left; reflexivity|reflexivity]].
Qed.
Lemma ins_y_in y l z : In z (ins_y y l) <-> z = y \/ In z l.
Proof.
  induction l as [|a l IH]; cbn [ins_y]; [cbn; intuition|]. destruct (y <? a); [cbn; intuition|]. destruct (y =? a) eqn:E; [apply Z.eqb_eq in E; subst; cbn; intuition|]. cbn [In]. rewrite IH. intuition.
Qed.
Lemma ins_y_sorted y l : StronglySorted Z.lt l -> StronglySorted Z.lt (ins_y y l).
Proof.
  induction l as [|a l IH]; intros S; cbn [ins_y]; [constructor; constructor|]. inversion S as [|? ? S1 S2]; subst. destruct (y <? a) eqn:L.
  - constructor; [exact S|]. constructor; [lia|]. revert S2. apply Forall_impl. intros; lia.
  - destruct (y =? a) eqn:E; [exact S|]. constructor; [auto|]. rewrite Forall_forall in *. intros z Z1. apply ins_y_in in Z1 as [->|Z1]; [lia|auto].
Qed.
Lemma q_ys_spec x Q : StronglySorted Z.lt (q_ys x Q) /\ forall y, In y (q_ys x Q) <-> In (mk_pt x y) Q.
Proof.
  induction Q as [|p Q [IH1 IH2]]; [split; [constructor|cbn; tauto]|]. unfold q_ys in *. cbn [fold_right]. destruct (px p =? x) eqn:E.
  - split; [apply ins_y_sorted, IH1|]. intros y. rewrite ins_y_in, IH2. cbn [In]. destruct p as [a b]. cbn [px py] in *. split; [intros [->|H]; [left; f_equal; lia|auto]|]. intros [H|H]; [left; congruence|auto].
  - split; [exact IH1|]. intros y. rewrite IH2. cbn [In]. split; [auto|]. intros [H|H]; [|exact H]. subst p. cbn [px] in E. lia.
Qed.
