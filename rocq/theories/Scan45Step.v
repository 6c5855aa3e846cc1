(* The sweep for 45-degree polygons: one vertex of a column. *)
From Verif Require Import Base Units Scan90Spec Poly90Spec Poly90Model Poly90Proofs ArbSpec ArbSums Ins45Spec Ins45Model Scan45Model Scan45Base.
From Coq Require Import Sorting.Sorted.

Definition aheads (x : Z) (ps : list point) : Prop := forall p, In p ps -> x < px p.
Definition at_x (x : Z) (o : list out45) : Prop := forall q, In q o -> px (fst q) = x.
Lemma aheads_app x a b : aheads x a -> aheads x b -> aheads x (a ++ b).
Proof. intros H1 H2 p P. apply in_app_or in P as [P|P]; auto. Qed.
Lemma at_x_app x a b : at_x x a -> at_x x b -> at_x x (a ++ b).
Proof. intros H1 H2 p P. apply in_app_or in P as [P|P]; auto. Qed.
Lemma osum_app F a b : osum F (a ++ b) = osum F a + osum F b.
Proof. apply tot_app. Qed.
(* the vertical edges of the output at a column *)
Definition vsum1 (H : Z -> Z) (o : out45) : Z := let '(p, (r, c)) := o in if r =? 2 then c * H (py p) else 0.
Definition vsum (H : Z -> Z) (l : list out45) : Z := tot (vsum1 H) l.
Lemma vsum_app H a b : vsum H (a ++ b) = vsum H a + vsum H b.
Proof. apply tot_app. Qed.
Lemma chain_incl x Q Q' L : (forall p, In p Q -> In p Q') -> chain (guard x Q) L -> chain (guard x Q') L.
Proof. intros H. apply chain_impl. intros a b _ _. apply guard_incl, H. Qed.
Lemma link_incl x Q Q' a b : (forall p, In p Q -> In p Q') -> link (guard x Q) a b -> link (guard x Q') a b.
Proof. intros H. destruct a as [a|], b as [b|]; cbn [link]; auto. apply guard_incl, H. Qed.

(* a new element, if it separates different counts *)
Definition nw (p : point) (r : Z) (d n : cnt2) : list elem := if ceqb n d then [] else [mk_el (px p) (py p) r n].
Lemma nw_line p r n : line (mk_el (px p) (py p) r n) = line_at p r.
Proof. reflexivity. Qed.
Lemma nw_W g F p r d n : W g F d (nw p r d n) = (g n - g d) * F (line_at p r).
Proof. unfold nw. destruct (ceqb n d) eqn:E; [apply ceqb_iff in E; subst; cbn [W]; lia|]. cbn [W e_cnt]. rewrite nw_line. lia. Qed.
Lemma nw_last p r d n : lastc d (nw p r d n) = n.
Proof. unfold nw. destruct (ceqb n d) eqn:E; [apply ceqb_iff in E; subst; reflexivity|reflexivity]. Qed.
Lemma nw_in p r d n a : In a (nw p r d n) -> a = mk_el (px p) (py p) r n.
Proof. unfold nw. destruct (ceqb n d); [intros []|intros [<-|[]]; reflexivity]. Qed.

Section scan.
  Context (keep : cnt2 -> bool).
  Definition keepz (c : cnt2) : Z := if keep c then 1 else 0.

  Lemma emit_osum F c1 c2 p r (h : bool) : -1 <= r <= 1 -> osum F (emit keep c1 c2 p r h) = (if h then 1 else -1) * ((keepz c2 - keepz c1) * F (line_at p r)).
  Proof.
    intros R. unfold emit, keepz, osum. assert ((-1 <=? r) && (r <=? 1) = true) as E by lia. destruct (keep c1), (keep c2), h; cbn [andb negb Z.eqb]; unfold tot; cbn [fold_right map]; unfold osum1; rewrite ?E; lia.
  Qed.
  Lemma emit_osum2 F c1 c2 p (h : bool) : osum F (emit keep c1 c2 p 2 h) = 0.
  Proof. unfold emit. destruct (keep c1), (keep c2); reflexivity. Qed.
  Lemma emit_vsum H c1 c2 p r (h : bool) : -1 <= r <= 1 -> vsum H (emit keep c1 c2 p r h) = 0.
  Proof. intros R. assert (r =? 2 = false) as E by lia. unfold emit, vsum. destruct (keep c1), (keep c2), h; cbn [andb negb Z.eqb]; cbn [tot vsum1]; rewrite ?E; reflexivity. Qed.
  Lemma emit_vsum2 H c1 c2 p (h : bool) : vsum H (emit keep c1 c2 p 2 h) = (if h then 1 else -1) * ((keepz c2 - keepz c1) * H (py p)).
  Proof. unfold emit, keepz, vsum. destruct (keep c1), (keep c2), h; cbn [andb negb Z.eqb]; unfold tot, vsum1; cbn [Z.eqb Pos.eqb]; lia. Qed.
  Lemma emit_at x c1 c2 p r h : px p = x -> at_x x (emit keep c1 c2 p r h).
  Proof. intros E. unfold emit. destruct (keep c1), (keep c2); cbn; intros q; cbn [In]; intuition (subst; cbn; auto). Qed.
  Lemma emit_same c p r h : emit keep c c p r h = [].
  Proof. unfold emit. destruct (keep c); reflexivity. Qed.

  Lemma put_good x p r cb n A U Q : px p = x -> -1 <= r <= 1 ->
    (forall a, In a A -> rise_ok a /\ (ev a x < py p \/ ev a x = py p /\ e_rise a < r)) -> (forall u, In u U -> rise_ok u /\ py p < ev u x) -> chain (guard x Q) (A ++ U) ->
    good (put keep x p r cb n (A ++ U)) (fun t => let '(L', ps, o) := t in
      L' = A ++ nw p r cb n ++ U /\ chain (guard x (ps ++ Q)) L' /\ aheads x ps /\ o = emit keep cb n p r true).
  Proof.
    intros X R HA HU C. unfold put, nw. destruct (ceqb n cb) eqn:E.
    - apply ceqb_iff in E. subst n. cbn [good app]. rewrite emit_same. repeat split; auto. intros q [].
    - set (e := mk_el (px p) (py p) r n). assert (Ee : ev e x = py p) by (unfold ev, e; cbn [e_x e_y e_rise]; rewrite X; ring). assert (Re : rise_ok e) by exact R.
      assert (Ai : forall a, In a A -> less_el x a e = true) by (intros a I; apply less_after; unfold after; rewrite Ee; apply (HA a I)).
      assert (Ui : forall a, In a U -> less_el x e a = true) by (intros a I; apply less_after; unfold after; rewrite Ee; left; apply (HU a I)).
      unfold set_insert. rewrite span_split with (l1 := A) (l2 := U); [|exact Ai|].
      2:{ destruct U as [|u U]; [exact I|]. destruct (less_el x u e) eqn:B; [|reflexivity]. apply less_after in B. specialize (Ui u (or_introl eq_refl)). apply less_after in Ui. unfold after in *. lia. }
      assert (forallb (less_el x e) U = true) as -> by (apply forallb_forall; exact Ui). cbn [rbind].
      eapply good_bind; [apply find_good; [exact Re| |]|].
      + intros b B. apply last_opt_in in B as [A' ->]. specialize (HA b ltac:(apply in_or_app; right; left; reflexivity)). destruct HA as [H1 H2]. split; [exact H1|]. unfold orderly. rewrite Ee. cbn [e_rise e]. lia.
      + intros b B. destruct U as [|u U]; [discriminate|]. assert (u = b) as -> by (cbn in B; congruence). destruct (HU b (or_introl eq_refl)) as [H1 H2]. split; [exact H1|]. unfold orderly. lia.
      + intros ps [G1 [G2 G3]]. cbn [good]. split; [reflexivity|]. split; [|split; [exact G3|reflexivity]].
        assert (I1 : forall q, In q ps -> In q (ps ++ Q)) by (intros q P; apply in_or_app; left; exact P). assert (I2 : forall q, In q Q -> In q (ps ++ Q)) by (intros q P; apply in_or_app; right; exact P).
        apply chain_app in C as [C1 [C2 _]]. change (A ++ e :: U) with (A ++ [e] ++ U). apply chain_app. split; [exact (chain_incl _ _ _ _ I2 C1)|]. split.
        * apply chain_app. split; [split; exact I|]. split; [exact (chain_incl _ _ _ _ I2 C2)|]. exact (link_incl _ _ _ _ _ I1 G2).
        * exact (link_incl _ _ _ _ _ I1 G1).
  Qed.

  (* the counts that come from the left to the vertex *)
  Definition kk (G : list elem) (cur : cnt2) (i : Z) : cnt2 :=
    match G with e :: _ => if e_rise e + 1 <=? i then e_cnt e else cur | [] => cur end.
  Definition fresh (w : event) (v cb : cnt2) (G : list elem) : list elem :=
    let cur := csub cb v in
    let n0 := cadd (cadd v (n_0 w)) (kk G cur 0) in
    let n1 := cadd (cadd (cadd v (n_0 w)) (n_1 w)) (kk G cur 1) in
    let n2 := cadd (cadd (cadd (cadd v (n_0 w)) (n_1 w)) (n_2 w)) (kk G cur 2) in
    nw (n_pt w) (-1) cb n0 ++ nw (n_pt w) 0 n0 n1 ++ nw (n_pt w) 1 n1 n2.
  Lemma fresh_in w v cb G a : In a (fresh w v cb G) -> e_x a = px (n_pt w) /\ e_y a = py (n_pt w) /\ rise_ok a.
  Proof. unfold fresh. intros H. apply in_app_or in H as [H|H]; [|apply in_app_or in H as [H|H]]; apply nw_in in H; subst a; unfold rise_ok; cbn [e_x e_y e_rise]; lia. Qed.
  Lemma fresh_sorted x w v cb G : px (n_pt w) = x -> StronglySorted (after x) (fresh w v cb G).
  Proof.
    intros X. unfold fresh. cbv zeta. set (c0 := cadd (cadd v _) _). set (c1 := cadd (cadd (cadd v (n_0 w)) (n_1 w)) _). set (c2 := cadd _ (kk G _ 2)).
    assert (O : forall p r d n, StronglySorted (after x) (nw p r d n)) by (intros p r d n; unfold nw; destruct (ceqb n d); [constructor|constructor; constructor]).
    assert (E : forall r n, ev (mk_el (px (n_pt w)) (py (n_pt w)) r n) x = py (n_pt w)) by (intros r n; unfold ev; cbn [e_x e_y e_rise]; rewrite X; ring).
    apply strong_app. split; [apply O|]. split; [apply strong_app; split; [apply O|]; split; [apply O|]|].
    - intros a b A B. apply nw_in in A, B. subst a b. unfold after. rewrite !E. cbn [e_rise]. lia.
    - intros a b A B. apply nw_in in A. apply in_app_or in B as [B|B]; apply nw_in in B; subst a b; unfold after; rewrite !E; cbn [e_rise]; lia.
  Qed.
  Lemma fresh_last w v cb G : (length G <= 1)%nat -> (forall e, In e G -> rise_ok e) -> lastc cb (fresh w v cb G) = cadd (cadd (cadd (cadd v (n_0 w)) (n_1 w)) (n_2 w)) (lastc (csub cb v) G).
  Proof.
    intros L R. unfold fresh. rewrite !lastc_app, !nw_last. f_equal. destruct G as [|e [|e' G]]; [reflexivity| |cbn in L; lia]. specialize (R e (or_introl eq_refl)). unfold rise_ok in R. cbn [kk lastc]. assert (e_rise e + 1 <=? 2 = true) as -> by lia. reflexivity.
  Qed.
  Lemma fresh_W g F x w v cb G : additive g -> px (n_pt w) = x -> (length G <= 1)%nat -> (forall e, In e G -> rise_ok e /\ ev e x = py (n_pt w)) ->
    W g F cb (fresh w v cb G) = esum1 g F w + W g F (csub cb v) G.
  Proof.
    intros [A0 [A1 A2]] X L R. unfold fresh. rewrite !W_app, ?lastc_app, !nw_last, !nw_W. unfold esum1. destruct G as [|e [|e' G]]; [| |cbn in L; lia].
    - cbn [kk W]. rewrite !A1, A2. lia.
    - destruct (R e (or_introl eq_refl)) as [R1 R2]. unfold rise_ok in R1. cbn [kk W]. rewrite (line_ev e x), R2. assert (E : mk_pt x (py (n_pt w)) = n_pt w) by (destruct (n_pt w); cbn in *; congruence). rewrite E.
      assert (e_rise e = -1 \/ e_rise e = 0 \/ e_rise e = 1) as [K|[K|K]] by lia; rewrite K; rewrite !A1, ?A2; (destruct (_ <=? 0) eqn:B0; [|]); (destruct (_ <=? 1) eqn:B1; [|]); (destruct (_ <=? 2) eqn:B2; [|]); try (exfalso; lia); rewrite ?A2; lia.
  Qed.

  Lemma step_good x lo G U v prev w Q :
    px (n_pt w) = x ->
    (forall a, In a lo -> rise_ok a /\ ev a x < py (n_pt w)) ->
    (forall a, In a G -> rise_ok a /\ ev a x = py (n_pt w) /\ e_x a < x) -> (length G <= 1)%nat ->
    (forall a, In a U -> rise_ok a /\ py (n_pt w) < ev a x) ->
    StronglySorted (fun a b => ev a x < ev b x) U ->
    chain (guard x Q) (lo ++ G ++ U) -> (v <> cz -> px prev = x) ->
    good (step keep x (lo ++ G ++ U) v prev w) (fun t => let '(L', ps, o, nx) := t in
      L' = lo ++ fresh w v (lastc cz lo) G ++ U /\ nx = hd_error U /\ aheads x ps /\ at_x x o /\ chain (guard x (ps ++ Q)) L' /\
      (forall F, osum F o = W keepz F (lastc cz lo) (fresh w v (lastc cz lo) G) - W keepz F (csub (lastc cz lo) v) G) /\
      (forall H, vsum H o = (keepz (lastc cz lo) - keepz (csub (lastc cz lo) v)) * (H (py prev) - H (py (n_pt w))))).
  Proof.
    intros X Hlo HG LG HU SU C HP. unfold step. set (p := n_pt w) in *. cbv zeta. rewrite lower_split; cycle 1.
    { intros a A. apply (Hlo a A). } { intros a A. apply in_app_or in A as [A|A]; [destruct (HG a A) as [_ [E _]]; lia|destruct (HU a A); lia]. }
    cbn [rbind]. rewrite span_split; cycle 1.
    { intros a A. destruct (HG a A) as [_ [E _]]. lia. } { destruct U as [|u U]; [exact I|]. destruct (HU u (or_introl eq_refl)). lia. }
    set (cb := lastc cz lo) in *. set (cur := csub cb v).
    set (o1 := if ceqb v cz then [] else _).
    assert (O1 : at_x x o1 /\ (forall F, osum F o1 = 0) /\ forall H, vsum H o1 = (keepz cb - keepz cur) * (H (py prev) - H (py p))).
    { unfold o1. destruct (ceqb v cz) eqn:E; [split; [intros q []|]; split; [reflexivity|]; intros H; unfold cur; apply ceqb_iff in E; rewrite E; assert (csub cb cz = cb) as -> by c2; unfold vsum; cbn [tot]; lia|]. assert (v <> cz) as N by (intros E1; apply ceqb_iff in E1; congruence). specialize (HP N). split; [apply at_x_app; apply emit_at; assumption|]. split; [intros F; rewrite osum_app, !emit_osum2; reflexivity|]. intros H. rewrite vsum_app, !emit_vsum2. lia. }
    clearbody o1. destruct O1 as [O1 [O1s O1v]].
    eapply good_bind with (P := fun t => let '(o2, k, ps) := t in at_x x o2 /\ ((forall F, osum F o2 = - W keepz F cur G) /\ forall H, vsum H o2 = 0) /\ k = (kk G cur 0, kk G cur 1, kk G cur 2) /\ aheads x ps /\ chain (guard x (ps ++ Q)) (lo ++ U)).
    { destruct G as [|e [|e' G]]; [| |cbn in LG; lia].
      - cbn [eat good kk W]. split; [intros q []|]. split; [split; reflexivity|]. split; [reflexivity|]. split; [intros q []|exact C].
      - destruct (HG e (or_introl eq_refl)) as [R1 [R2 R3]]. cbn [eat app]. assert (pt_eqb (mk_pt (e_x e) (e_y e)) p = false) as ->.
        { apply not_true_iff_false. intros E. apply pt_eqb_iff in E. rewrite <- E in X. cbn in X. lia. }
        assert (Oe : at_x x (emit keep cur (e_cnt e) p (e_rise e) false ++ []) /\ ((forall F, osum F (emit keep cur (e_cnt e) p (e_rise e) false ++ []) = - W keepz F cur [e]) /\ forall H, vsum H (emit keep cur (e_cnt e) p (e_rise e) false ++ []) = 0) /\ set_up (e_rise e) (e_cnt e) (cur, cur, cur) = (kk [e] cur 0, kk [e] cur 1, kk [e] cur 2)).
        { rewrite app_nil_r. split; [apply emit_at, X|]. split; [|reflexivity]. split; [|intros H; apply emit_vsum, R1]. intros F. rewrite emit_osum by exact R1. cbn [W]. rewrite (line_ev e x), R2. assert (E : mk_pt x (py p) = p) by (destruct p; cbn in *; congruence). rewrite E. lia. }
        destruct Oe as [Oe1 [[Oe2 Oe2v] Oe3]].
        apply chain_app in C as [C1 [C2 _]]. cbn [app] in C2. assert (C3 : chain (guard x Q) U) by apply C2.
        destruct U as [|n U].
        + cbn [rbind good]. repeat apply conj; auto. intros q []. cbn [app]. rewrite app_nil_r. exact C1.
        + destruct (HU n (or_introl eq_refl)) as [N1 N2]. eapply good_bind; [apply find_good; [exact N1| |]|].
          * intros b B. apply last_opt_in in B as [A' ->]. destruct (Hlo b ltac:(apply in_or_app; right; left; reflexivity)) as [H1 H2]. split; [exact H1|]. unfold orderly. lia.
          * intros b B. destruct U as [|u U]; [discriminate|]. assert (u = b) as -> by (cbn in B; congruence). destruct (HU b ltac:(right; left; reflexivity)) as [H1 H2]. split; [exact H1|]. unfold orderly. intros _. inversion SU as [|? ? _ Fo]; subst. inversion Fo; assumption.
          * intros ps [G1 [G2 G3]]. cbn [rbind good]. rewrite (app_nil_r ps). repeat apply conj; auto. apply chain_app. assert (I1 : forall q, In q ps -> In q (ps ++ Q)) by (intros q P; apply in_or_app; left; exact P). assert (I2 : forall q, In q Q -> In q (ps ++ Q)) by (intros q P; apply in_or_app; right; exact P). split; [exact (chain_incl _ _ _ _ I2 C1)|]. split; [exact (chain_incl _ _ _ _ I2 C3)|]. exact (link_incl _ _ _ _ _ I1 G1). }
    intros [[o2 k] ps] [E1 [[E2 E2v] [-> [E3 E4]]]].
    set (n0 := cadd (cadd v (n_0 w)) (kk G cur 0)). set (n1 := cadd _ (kk G cur 1)). set (n2 := cadd _ (kk G cur 2)).
    assert (Enw : forall r n a d, In a (nw p r d n) -> -1 <= r <= 1 -> rise_ok a /\ ev a x = py p /\ e_rise a = r) by (intros r n a d H Hr; apply nw_in in H; subst a; unfold rise_ok, ev; cbn [e_x e_y e_rise]; rewrite X; lia).
    eapply good_bind; [apply (put_good x p (-1) cb n0 lo U (ps ++ Q) X ltac:(lia)); [|exact HU|exact E4]|].
    { intros a A. destruct (Hlo a A). auto. }
    intros [[L0 p0] q0] [-> [P1 [P2 ->]]]. rewrite (app_assoc lo) in P1 |- *.
    eapply good_bind; [apply (put_good x p 0 n0 n1 (lo ++ nw p (-1) cb n0) U (p0 ++ ps ++ Q) X ltac:(lia)); [|exact HU|exact P1]|].
    { intros a A. apply in_app_or in A as [A|A]; [destruct (Hlo a A); auto|]. apply Enw in A; [|lia]. destruct A as [A1 [A2 A3]]. split; [exact A1|lia]. }
    intros [[L1 p1] q1] [-> [P3 [P4 ->]]]. rewrite (app_assoc (lo ++ _)) in P3 |- *.
    eapply good_bind; [apply (put_good x p 1 n1 n2 ((lo ++ nw p (-1) cb n0) ++ nw p 0 n0 n1) U (p1 ++ p0 ++ ps ++ Q) X ltac:(lia)); [|exact HU|exact P3]|].
    { intros a A. apply in_app_or in A as [A|A]; [apply in_app_or in A as [A|A]; [destruct (Hlo a A); auto|]|]; apply Enw in A; try lia; destruct A as [A1 [A2 A3]]; (split; [exact A1|lia]). }
    intros [[L2 p2] q2] [-> [P5 [P6 ->]]]. cbn [good].
    assert (FR : fresh w v cb G = nw p (-1) cb n0 ++ nw p 0 n0 n1 ++ nw p 1 n1 n2) by reflexivity.
    rewrite FR. split; [rewrite <- !app_assoc; reflexivity|]. split; [reflexivity|]. split; [repeat apply aheads_app; assumption|].
    split; [repeat apply at_x_app; try assumption; apply emit_at, X|]. split; [rewrite <- !app_assoc in *; exact P5|].
    split; [intros F; rewrite !osum_app, !W_app, ?lastc_app, !nw_last, !nw_W, O1s, E2, !emit_osum by lia; lia|].
    intros H. rewrite !vsum_app, O1v, E2v, !emit_vsum by lia. lia.
  Qed.
End scan.
