(* If all points where diagonal edges begin or end have even x + y then the sweep never
   meets diagonals that cross beside the grid: it does not throw. *)
From Verif Require Import Base Units Scan90Spec Poly90Spec Poly90Model ArbSpec Ins45Spec Ins45Model Scan45Model.

Definition safe {A : Type} (r : res A) (P : A -> Prop) : Prop := match r with Fine a => P a | Throw => False | Bad => True end.
Lemma safe_bind {A B : Type} (r : res A) (f : A -> res B) P Q : safe r P -> (forall a, P a -> safe (f a) Q) -> safe (rbind r f) Q.
Proof. destruct r as [a| |]; cbn [safe rbind]; intros H K; [apply K, H|exact H|exact I]. Qed.
Lemma safe_imp {A : Type} (r : res A) (P Q : A -> Prop) : (forall a, P a -> Q a) -> safe r P -> safe r Q.
Proof. destruct r as [a| |]; cbn [safe]; auto. Qed.

Definition even_pt (p : point) : Prop := Z.even (px p + py p) = true.
Definition eel (e : elem) : Prop := -1 <= e_rise e <= 1 /\ (e_rise e <> 0 -> Z.even (e_x e + e_y e) = true).
Definition eev (w : event) : Prop := n_0 w <> cz \/ n_2 w <> cz -> even_pt (n_pt w).
Definition eopt (o : option elem) : Prop := match o with Some e => eel e | None => True end.

Lemma even_half z : Z.even z = true <-> exists k, z = 2 * k.
Proof. rewrite Z.even_spec. reflexivity. Qed.
Lemma eel_at e x y : eel e -> e_rise e <> 0 -> ev e x = y -> even_pt (mk_pt x y).
Proof.
  intros [R E] N <-. specialize (E N). unfold even_pt, ev. cbn [px py]. apply even_half in E as [k E]. apply even_half.
  assert (e_rise e = -1 \/ e_rise e = 1) as [-> | ->] by lia; [exists k|exists (k + x - e_x e)]; lia.
Qed.

Lemma ahead_safe x ps : safe (ahead x ps) (fun _ => True).
Proof. unfold ahead. destruct (forallb _ _); exact I. Qed.
Lemma sched_safe x lo hi : eel lo -> eel hi -> safe (sched x lo hi) (fun _ => True).
Proof.
  intros A B. unfold sched. destruct ((e_rise lo =? 1) && (e_rise hi =? -1)) eqn:C.
  - assert (D : Z.odd (ev hi x - ev lo x) = false).
    { apply andb_true_iff in C as [C1 C2]. apply Z.eqb_eq in C1, C2. destruct A as [_ A], B as [_ B]. specialize (A ltac:(lia)). specialize (B ltac:(lia)). apply even_half in A as [a A], B as [b B]. rewrite <- Z.negb_even. apply negb_false_iff, even_half. unfold ev. rewrite C1, C2. exists (b - a - x + e_x lo). lia. }
    rewrite D. apply ahead_safe.
  - destruct ((e_rise lo =? 1) && (e_rise hi =? 0)); [apply ahead_safe|]. destruct ((e_rise lo =? 0) && (e_rise hi =? -1)); [apply ahead_safe|exact I].
Qed.
Lemma find_cross_safe x b e a : eopt b -> eel e -> eopt a -> safe (find_cross x b e a) (fun _ => True).
Proof.
  intros B E A. unfold find_cross. eapply safe_bind with (P := fun _ => True).
  - destruct b; [apply sched_safe; assumption|exact I].
  - intros u _. eapply safe_bind with (P := fun _ => True); [destruct a; [apply sched_safe; assumption|exact I]|intros; exact I].
Qed.
Lemma span_app {A : Type} (f : A -> bool) l u v : span f l = (u, v) -> l = u ++ v /\ forallb f u = true.
Proof.
  revert u v. induction l as [|a l IH]; cbn [span]; intros u v H; [injection H as <- <-; auto|]. destruct (f a) eqn:F; [|injection H as <- <-; auto].
  destruct (span f l) as [u' v']. injection H as <- <-. destruct (IH _ _ eq_refl) as [-> Q]. cbn [forallb app]. rewrite F, Q. auto.
Qed.
Lemma last_eopt l : Forall eel l -> eopt (last_opt l).
Proof. induction 1 as [|e [|f l] E F IH]; cbn [last_opt eopt]; [exact I|exact E|exact IH]. Qed.
Lemma hd_eopt l : Forall eel l -> eopt (hd_error l).
Proof. destruct 1; cbn; auto. Qed.
Lemma lower_safe x y L : Forall eel L -> safe (lower x y L) (fun r => Forall eel (fst r) /\ Forall eel (snd r)).
Proof. intros H. unfold lower. destruct (span _ _) as [lo hi] eqn:S. apply span_app in S as [-> _]. apply Forall_app in H. destruct (forallb _ _); [exact H|exact I]. Qed.
Lemma set_insert_safe x e L : eel e -> Forall eel L -> safe (set_insert x e L) (fun r => Forall eel (fst (fst r)) /\ eel (snd (fst r)) /\ Forall eel (snd r)).
Proof.
  intros E H. unfold set_insert. destruct (span _ _) as [l1 l2] eqn:S. apply span_app in S as [-> _]. apply Forall_app in H as [H1 H2]. destruct (forallb _ _); [cbn; auto|].
  destruct l2 as [|a l2]; [exact I|]. inversion_clear H2. destruct (_ && _); [cbn; auto|exact I].
Qed.
Lemma put_safe keep x p r cb n L : (n <> cb -> r <> 0 -> even_pt p) -> -1 <= r <= 1 -> Forall eel L -> safe (put keep x p r cb n L) (fun t => Forall eel (fst (fst t))).
Proof.
  intros E R H. unfold put. destruct (ceqb n cb) eqn:C; [exact H|].
  assert (N : n <> cb) by (intros ->; destruct cb; unfold ceqb in C; cbn [fst snd] in C; lia).
  eapply safe_bind; [apply set_insert_safe; [|exact H]|].
  - split; [exact R|]. cbn [e_rise e_x e_y]. exact (E N).
  - intros [[l1 e] l2] [A [B D]]. cbn [fst snd] in A, B, D. eapply safe_bind with (P := fun _ => True); [apply find_cross_safe; [apply last_eopt, A|exact B|apply hd_eopt, D]|].
    intros ps _. cbn [safe fst]. apply Forall_app. split; [exact A|constructor; assumption].
Qed.

Definition k_ok (E : Prop) (cur : cnt2) (k : cnt2 * cnt2 * cnt2) : Prop := (fst (fst k) <> cur -> E) /\ (snd k <> snd (fst k) -> E).
Lemma eat_safe keep x p below cur0 cur k G U : px p = x -> Forall (fun e => ev e x = py p) G -> eopt below -> Forall eel G -> Forall eel U -> k_ok (even_pt p) cur0 k ->
  safe (eat keep x p below cur k G U) (fun t => k_ok (even_pt p) cur0 (snd (fst t))).
Proof.
  intros X. revert cur k. induction G as [|e G IH]; intros cur k Y B HG HU K; cbn [eat]; [exact K|]. inversion_clear Y. inversion_clear HG.
  eapply safe_bind with (P := fun _ => True).
  - destruct (G ++ U) as [|n m] eqn:S; [exact I|]. assert (F : Forall eel (n :: m)) by (rewrite <- S; apply Forall_app; auto). inversion_clear F. apply find_cross_safe; [exact B|assumption|apply hd_eopt; assumption].
  - intros ps _. eapply safe_bind; [apply IH; [assumption|assumption|assumption|assumption|]|].
    + assert (D : e_rise e <> 0 -> even_pt p) by (intros N; destruct p as [a b]; cbn [px py] in *; subst a; apply (eel_at e); assumption).
      destruct k as [[k0 k1] k2]. unfold k_ok, set_up in *. cbn [fst snd] in *. destruct K as [K1 K2]. destruct H1 as [R _]. split.
      * destruct (Z.leb_spec (e_rise e + 1) 0); [intros _; apply D; lia|exact K1].
      * destruct (Z.leb_spec (e_rise e + 1) 1), (Z.leb_spec (e_rise e + 1) 2); try lia; [intros N; exfalso; apply N; reflexivity|intros _; apply D; lia].
    + intros [[o' k'] ps'] H'. exact H'.
Qed.
Lemma cadd_cancel a b c : cadd (cadd a b) c <> cadd a c -> b <> cz.
Proof. intros H ->. apply H. unfold cadd, cz. cbn [fst snd]. f_equal; lia. Qed.
Lemma cnt_dec (a b : cnt2) : a = b \/ a <> b.
Proof. destruct a as [a1 a2], b as [b1 b2]. destruct (Z.eq_dec a1 b1), (Z.eq_dec a2 b2); [left; congruence|right; congruence|right; congruence|right; congruence]. Qed.
Lemma cnt_eq (a b : cnt2) : fst a = fst b -> snd a = snd b -> a = b.
Proof. destruct a, b. cbn [fst snd]. congruence. Qed.
Lemma step_safe keep x L v prev w : px (n_pt w) = x -> eev w -> Forall eel L -> safe (step keep x L v prev w) (fun t => Forall eel (fst (fst (fst t)))).
Proof.
  intros X W H. unfold step. eapply safe_bind; [apply lower_safe, H|]. intros [lo hi] [H1 H2]. cbn [fst snd] in H1, H2.
  destruct (span _ hi) as [G U] eqn:S. apply span_app in S as [-> Q]. apply Forall_app in H2 as [HG HU].
  eapply safe_bind; [apply (eat_safe keep x (n_pt w) (last_opt lo) (csub (lastc cz lo) v))|]; [exact X| |apply last_eopt, H1|exact HG|exact HU| |].
  { rewrite forallb_forall in Q. apply Forall_forall. intros e I. apply Z.eqb_eq, Q, I. }
  { split; intros N; exfalso; apply N; reflexivity. }
  intros [[o2 k] ps] [K1 K2]. destruct k as [[k0 k1] k2]. cbn [fst snd] in K1, K2.
  set (cb := lastc cz lo) in *. set (s0 := cadd v (n_0 w)). set (s1 := cadd s0 (n_1 w)). set (s2 := cadd s1 (n_2 w)).
  eapply safe_bind; [apply put_safe|].
  { intros N _. destruct (cnt_dec (n_0 w) cz) as [E0|E0]; [|apply W; left; exact E0]. destruct (cnt_dec k0 (csub cb v)) as [E1|E1]; [|apply K1, E1]. exfalso. apply N. unfold s0. rewrite E0, E1. unfold cadd, csub, cz. apply cnt_eq; cbn [fst snd]; lia. }
  { lia. }
  { apply Forall_app; split; [exact H1|exact HU]. }
  intros [[L0 p0] q0] F0. cbn [fst snd] in F0. eapply safe_bind; [apply put_safe; [intros _ N; exfalso; apply N; reflexivity|lia|exact F0]|].
  intros [[L1 p1] q1] F1. cbn [fst snd] in F1. eapply safe_bind; [apply put_safe; [|lia|exact F1]|].
  { intros N _. destruct (cnt_dec (n_2 w) cz) as [E0|E0]; [|apply W; right; exact E0]. destruct (cnt_dec k2 k1) as [E1|E1]; [|apply K2, E1]. exfalso. apply N. unfold s2. rewrite E0, E1. unfold cadd, cz. apply cnt_eq; cbn [fst snd]; lia. }
  intros [[L2 p2] q2] F2. exact F2.
Qed.

Definition ecol (x : Z) (w : event) : Prop := px (n_pt w) = x /\ eev w.
Lemma gather_safe x w l : ecol x w -> Forall (ecol x) l -> ecol x (fst (gather w l)) /\ Forall (ecol x) (snd (gather w l)).
Proof.
  intros W H. revert w W. induction H as [|u l U H IH]; intros w W; cbn [gather]; [split; [exact W|constructor]|]. destruct (py (n_pt u) =? py (n_pt w)) eqn:E.
  - apply IH. destruct W as [W1 W2], U as [U1 U2]. split; [exact W1|]. unfold eev, ev_add. cbn [n_pt n_0 n_2]. intros N.
    assert (P : n_pt u = n_pt w) by (destruct (n_pt u) as [a b], (n_pt w) as [c d]; cbn [px py] in *; f_equal; lia).
    destruct (cnt_dec (n_0 w) cz) as [A|A]; [|apply W2; left; exact A]. destruct (cnt_dec (n_2 w) cz) as [B|B]; [|apply W2; right; exact B]. rewrite <- P. apply U2.
    destruct N as [N|N]; [left|right]; intros Z; apply N; rewrite Z; [rewrite A|rewrite B]; reflexivity.
  - cbn [fst snd]. split; [exact W|constructor; assumption].
Qed.
Lemma process_safe keep fuel x L v prev nxt evs : Forall eel L -> Forall (ecol x) evs -> safe (process keep fuel x L v prev nxt evs) (fun t => Forall eel (fst (fst t))).
Proof.
  revert L v prev nxt evs. induction fuel as [|fuel IH]; intros L v prev nxt evs HL HE; (destruct evs as [|w evs]; cbn [process]; [exact HL|]); [exact I|].
  inversion HE as [|? ? W HE']; subst.
  match goal with |- safe (let '(vertex, rest) := ?t in _) _ => assert (T : ecol x (fst t) /\ Forall (ecol x) (snd t)) end.
  { destruct nxt as [e|]; [|apply gather_safe; assumption]. destruct (_ && _); [|apply gather_safe; assumption]. cbn [fst snd]. split; [|exact HE]. split; [reflexivity|]. intros [N|N]; exfalso; apply N; reflexivity. }
  destruct (match nxt with Some e => _ | None => _ end) as [vertex rest]. cbn [fst snd] in T. destruct T as [[T1 T2] T3].
  eapply safe_bind; [apply step_safe; eassumption|]. intros [[[L1 ps] o] nxt'] F. cbn [fst snd] in F. eapply safe_bind; [apply IH; eassumption|]. intros [[L2 ps'] o'] F'. exact F'.
Qed.

Lemma derive_eev x y cb G : Forall eel G -> Forall (fun e => ev e x = y) G -> ecol x (derive (mk_pt x y) cb G).
Proof.
  intros HG Y. unfold derive. set (E := even_pt (mk_pt x y)).
  assert (K : forall k, (fst (fst k) <> snd (fst k) -> E) -> (snd k <> cb -> E) -> let k' := fold_left (fun k e => set_down (e_rise e) (e_cnt e) k) G k in (fst (fst k') <> snd (fst k') -> E) /\ (snd k' <> cb -> E)).
  { induction G as [|e G IH]; intros k K1 K2; [split; assumption|]. inversion_clear HG as [|? ? HE HG']. inversion_clear Y as [|? ? YE Y']. cbn [fold_left]. apply (IH HG' Y').
    - destruct k as [[k0 k1] k2]. unfold set_down. cbn [fst snd] in *. destruct (Z.leb_spec 0 (e_rise e + 1)), (Z.leb_spec 1 (e_rise e + 1)); try lia; [intros N; exfalso; apply N; reflexivity|intros _; apply (eel_at e); [exact HE|lia|exact YE]|destruct HE; lia].
    - destruct k as [[k0 k1] k2]. unfold set_down. cbn [fst snd] in *. destruct (Z.leb_spec 2 (e_rise e + 1)); [intros _; apply (eel_at e); [exact HE|lia|exact YE]|exact K2]. }
  specialize (K (cb, cb, cb)). cbn [fst snd] in K. specialize (K ltac:(intros N; exfalso; apply N; reflexivity) ltac:(intros N; exfalso; apply N; reflexivity)).
  destruct (fold_left _ G _) as [[k0 k1] k2]. cbn [fst snd] in K. destruct K as [K1 K2]. split; [reflexivity|]. unfold eev. cbn [n_pt n_0 n_2].
  assert (Z : forall a, csub a a = cz) by (intros a; unfold csub, cz; apply cnt_eq; cbn [fst snd]; lia).
  intros [N|N]; [apply K1|apply K2]; intros ->; apply N, Z.
Qed.
Lemma cross_at_safe keep x L y : Forall eel L -> safe (cross_at keep x L y) (fun t => Forall (ecol x) (snd (fst (fst t)))).
Proof.
  intros H. unfold cross_at. eapply safe_bind; [apply lower_safe, H|]. intros [lo hi] [H1 H2]. cbn [fst snd] in H1, H2.
  destruct (span _ hi) as [G U] eqn:S. apply span_app in S as [-> Q]. apply Forall_app in H2 as [HG HU].
  assert (Y : Forall (fun e => ev e x = y) G) by (rewrite forallb_forall in Q; apply Forall_forall; intros e I; apply Z.eqb_eq, Q, I).
  destruct G as [|e [|f [|g [|h G]]]].
  - cbn. constructor.
  - inversion_clear HG. eapply safe_bind with (P := fun _ => True); [apply find_cross_safe; [apply last_eopt, H1|assumption|apply hd_eopt, HU]|]. intros ps _. cbn. constructor.
  - cbn [safe fst snd]. constructor; [apply derive_eev; assumption|constructor].
  - cbn [safe fst snd]. constructor; [apply derive_eev; assumption|constructor].
  - exact I.
Qed.
Lemma cross_all_safe keep x L ys : Forall eel L -> safe (cross_all keep x L ys) (fun t => Forall (ecol x) (snd (fst (fst t)))).
Proof.
  intros H. induction ys as [|y ys IH]; cbn [cross_all]; [constructor|]. eapply safe_bind; [apply cross_at_safe, H|]. intros [[[o cv] er] ps] A. eapply safe_bind; [apply IH|]. intros [[[o' cv'] er'] ps'] B. cbn [safe fst snd] in *. apply Forall_app. auto.
Qed.
Lemma marks_eel gone L : Forall eel L -> Forall eel (map fst (marks gone L)).
Proof. induction 1 as [|e L E H IH]; cbn [marks]; [constructor|]. destruct (gone e); [exact IH|]. cbn [map fst]. constructor; assumption. Qed.
Lemma search_safe x prev M : eopt prev -> Forall eel (map fst M) -> safe (search x prev M) (fun _ => True).
Proof.
  revert prev. induction M as [|[a fl] M IH]; intros prev P H; cbn [search]; [exact I|]. cbn [map fst] in H. inversion_clear H as [|? ? A H'].
  eapply safe_bind with (P := fun _ => True); [destruct fl; [apply find_cross_safe; [exact P|exact A|apply hd_eopt, H']|exact I]|]. intros ps _. eapply safe_bind with (P := fun _ => True); [apply IH; assumption|]. intros; exact I.
Qed.
Lemma advance_safe keep x L Q : Forall eel L -> safe (advance keep x L Q) (fun t => Forall (ecol x) (snd (fst (fst t))) /\ Forall eel (snd (fst t))).
Proof.
  intros H. unfold advance. eapply safe_bind; [apply cross_all_safe, H|]. intros [[[o cv] er] ps] A. cbn [fst snd] in A. pose proof (marks_eel (fun a => existsb (Z.eqb (ev a x)) er) L H) as M.
  eapply safe_bind with (P := fun _ => True); [apply search_safe; [exact I|exact M]|]. intros ps' _. cbn [safe fst snd]. auto.
Qed.
Lemma merge_cross_ecol x cv ins : Forall (ecol x) cv -> Forall (ecol x) ins -> Forall (ecol x) (merge_cross cv ins).
Proof.
  intros C. revert ins. induction C as [|c cv C1 C2 IH]; intros ins H; cbn [merge_cross]; [exact H|]. destruct (span _ ins) as [a b] eqn:S. apply span_app in S as [-> _]. apply Forall_app in H as [A B]. apply Forall_app. split; [exact A|]. constructor; [exact C1|apply IH, B].
Qed.
Lemma scan_safe keep fuel L Q ins : Forall eel L -> Forall eev ins -> safe (scan keep fuel L Q ins) (fun _ => True).
Proof.
  revert L Q ins. induction fuel as [|fuel IH]; intros L Q ins HL HI; (destruct ins as [|w ins]; cbn [scan]; [exact I|]); [exact I|].
  set (x := match q_min Q with Some m => _ | None => _ end). eapply safe_bind; [apply advance_safe, HL|]. intros [[[o1 cv] K] Q1] [A B]. cbn [fst snd] in A, B.
  assert (T : let t := if x =? px (n_pt w) then span (fun u => px (n_pt u) =? x) (w :: ins) else ([], w :: ins) in Forall (ecol x) (fst t) /\ Forall eev (snd t)).
  { destruct (x =? px (n_pt w)); [|cbn [fst snd]; split; [constructor|exact HI]]. destruct (span _ (w :: ins)) as [a b] eqn:S. apply span_app in S as [S1 S2]. rewrite S1 in HI. apply Forall_app in HI as [I1 I2]. cbn [fst snd]. split; [|exact I2].
    rewrite forallb_forall in S2. rewrite Forall_forall in *. intros u U. split; [apply Z.eqb_eq, S2, U|apply I1, U]. }
  cbv zeta in T. destruct (if x =? px (n_pt w) then _ else _) as [col rest]. cbn [fst snd] in T. destruct T as [T1 T2].
  eapply safe_bind; [apply process_safe; [exact B|apply merge_cross_ecol; assumption]|]. intros [[L1 ps] o2] F. cbn [fst snd] in F. eapply safe_bind with (P := fun _ => True); [apply IH; assumption|]. intros; exact I.
Qed.
Lemma scan_all_safe keep ins : Forall eev ins -> safe (scan_all keep ins) (fun _ => True).
Proof. intros H. unfold scan_all. destruct ins; [exact I|]. apply scan_safe; [constructor|exact H]. Qed.
