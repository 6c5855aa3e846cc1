(* The columns of the scan line of get_polygons. *)
From Verif Require Import Base Units Scan90Spec VertexLemmas Poly90Spec PolySpec Poly90Model Poly90Proofs Set90Spec Set90Model Set90Lemmas Set90Proofs RectFormProofs
  PolyFormGaps PolyFormModel PolyFormLemmas PolyFormHeap PolyFormClose PolyFormGood PolyFormFlags PolyFormState PolyFormProofs PolyFormSteps PolyFormLoop PolyFormSpec PolyFormRead.
From Coq Require Import Arith.

Lemma polys_winding_app a b x y : polys_winding (a ++ b) x y = polys_winding a x y + polys_winding b x y.
Proof. unfold polys_winding. apply PolyFormGaps.zsum_app. Qed.

(* the region of the vertices *)
Definition reg (V : list vertex) (x y : Z) : bool := cnt V x y =? 1.
Definition colinv (V : list vertex) (fr : bool) (o : orient) (X : Z) (s : pscan) (out : list poly90) : Prop :=
  exists h n M, s = mk_pscan h n M /\ ksorted M /\ (forall k, In k (keys M) <-> bd (cnt V X) k) /\
    st X h n (ids M) [] (fun x y => cnt V x y - turn o (polys_winding out) x y) /\ heads1 (reg V) X h M /\
    (fr = true -> forall i, In i (ids M) -> hol h i = []) /\
    (forall x y, X <= x -> turn o (polys_winding out) x y = 0) /\ Forall formed out /\ (fr = true -> Forall (fun p => p_holes p = []) out) /\
    (fr = false -> gq (reg V) h (ids M) /\ (forall i, In i (ids M) -> forall k, In k (hol h i) -> gr (reg V) h true k) /\ Forall (tight (turn o (reg V))) out).

Lemma ids_le_parity V X M y : clean_data V -> dint V -> ksorted M -> (forall k, In k (keys M) <-> bd (cnt V X) k) -> b2z (odd_len (ids_le y M)) = cnt V X y.
Proof.
  intros CD D S K. unfold ids_le. apply (parity (cnt V X)).
  - intros z. apply (cd_01 V CD).
  - exists INT_MIN. intros z Hz. destruct (Z.eq_dec (cnt V X z) 0) as [E|E]; [exact E|]. apply (dint_cnt_outside V X z D (cd_closed V CD)) in E. lia.
  - rewrite (filter_split y M S) in S. apply ksorted_app in S. apply S.
  - intros k. rewrite <- K. unfold keys. rewrite !in_map_iff. split.
    + intros [e [<- He]]. apply filter_In in He. split; [lia|]. exists e. tauto.
    + intros [L [e [<- He]]]. exists e. split; [reflexivity|]. apply filter_In. split; [exact He|lia].
Qed.

Lemma process_ok V fr o Xp X s out A B : clean_data V -> dint V -> colinv V fr o Xp s out -> Xp < X -> is_int X ->
  (forall x y, Xp <= x < X -> cnt V x y = cnt V Xp y) ->
  rem_ok (INT_MIN - 1) (cnt V (X - 1)) (cnt V X) A B ->
  exists s' ps, process_edges fr o X A B s = Some (s', ps) /\ colinv V fr o X s' (out ++ ps).
Proof.
  intros CD D [h [n [M [-> [S [K [Ss [Hd [Hf [Zr [Fo [Fh Gd]]]]]]]]]]]] L IX Cx R.
  assert (Out0 : forall x y, y <= INT_MIN - 1 \/ INT_MAX <= y -> cnt V x y = 0).
  { intros x y Hy. destruct (Z.eq_dec (cnt V x y) 0) as [E|E]; [exact E|]. apply (dint_cnt_outside V x y D (cd_closed V CD)) in E. lia. }
  assert (S1 : st X h n (ids M) [] (fun x y => cnt V x y - turn o (polys_winding out) x y)).
  { eapply (st_next Xp X); [exact Ss|exact L|exact S|intros k i Hi; destruct (Hd k i Hi) as [xp [V0 _]]; exists xp; exact V0|reflexivity|]. intros x y Hx. rewrite Zr by lia. rewrite (ids_le_parity V Xp M y CD D S K), Cx by exact Hx. lia. }
  destruct (column_ok (reg V) fr X (fun x y => cnt V x y - turn o (polys_winding out) x y) (cnt V (X - 1)) (cnt V X) h n M (INT_MIN - 1) A B) as [s' [E [h' [n' [M' [it' [out' [-> [S' [K' [T' Hd']]]]]]]]]]].
  - intros y. apply (cd_01 V CD).
  - intros y. apply (cd_01 V CD).
  - exists INT_MAX. intros y Hy. apply Out0. lia.
  - exact IX.
  - intros y Hy. split; apply Out0; lia.
  - exact S1.
  - exact S.
  - intros k. rewrite K. unfold bd. rewrite !(Cx (X - 1)) by lia. reflexivity.
  - intros k i Hi. destruct (Hd k i Hi) as [xp [V0 Rn]]. exists xp. split; [|split; [exact V0|]].
    2:{ intros x Hx. assert (Qx : forall z y, Xp <= z <= X - 1 -> reg V z y = reg V Xp y) by (intros z y Hz; unfold reg; rewrite Cx by lia; reflexivity).
      rewrite (Qx (X - 1) k), (Qx (X - 1) (k - 1)) by lia. destruct (Z_le_dec x Xp) as [C|C]; [apply Rn; lia|]. rewrite (Qx x k), (Qx x (k - 1)) by lia. tauto. }
    destruct V0 as [t [l [E1 [V1 E2]]]].
    assert (Hii : In i (ids M)) by (unfold ids; apply in_map_iff; exists (k, i); split; [reflexivity|exact Hi]).
    destruct (s_chain _ _ _ _ _ _ Ss i Hii) as [t1 [ot [M1 [_ [Xl _]]]]]. rewrite (mi_this _ _ _ _ M1) in E1. injection E1 as ->. rewrite V1, E2 in Xl. cbn [xle negb] in Xl.
    destruct Xl as [_ [Xl _]]. specialize (Xl eq_refl). lia.
  - exact Hf.
  - intros y. split; reflexivity.
  - intros Ef. destruct (Gd Ef) as [G1 [G2 _]]. split; assumption.
  - exact R.
  - intros l [e [He <-]]. destruct R as [EA [EB _]]. rewrite in_app_iff in He. destruct He as [He|He]; [destruct (edges_lows _ _ _ EA He) as [_ [_ [[I0 _] _]]]|destruct (edges_lows _ _ _ EB He) as [_ [_ [[I0 _] _]]]]; lia.
  - unfold process_edges. rewrite E. cbn [bind f_heap f_next f_map f_out].
    destruct (read_shells X h' (ids M') o fr out' (T_shell _ _ _ _ _ _ _ _ _ T')) as [ps [Ep [Fp [Gp [Wp Tp]]]]].
    { intros Ef a Ha. apply (T_fr _ _ _ _ _ _ _ _ _ T' Ef). exact Ha. }
    rewrite Ep. cbn [bind]. eexists _, ps. split; [reflexivity|].
    exists h', n', M'. split; [reflexivity|]. split; [exact S'|]. split; [exact K'|].
    assert (Tw : forall x y, turn o (polys_winding (out ++ ps)) x y = turn o (polys_winding out) x y + zsum (fv h' x y) out').
    { intros x y. transitivity (turn o (polys_winding out) x y + turn o (polys_winding ps) x y).
      - destruct o; cbn [turn]; apply polys_winding_app.
      - f_equal. destruct o; cbn [turn]; rewrite Wp; reflexivity. }
    split; [|split; [exact Hd'|split; [|split; [|split; [|split]]]]].
    + eapply st_ext; [exact (T_st _ _ _ _ _ _ _ _ _ T')|]. intros x y _. cbn beta. rewrite Tw. cbn [PH zsum fold_right]. lia.
    + intros Ef i Hi. destruct (T_fr _ _ _ _ _ _ _ _ _ T' Ef) as [_ [K2 _]]. apply K2. exact Hi.
    + intros x y Hx. rewrite Tw, Zr by lia. rewrite zsum_zero; [lia|]. intros a Ha. destruct (T_shell _ _ _ _ _ _ _ _ _ T' a Ha) as [[_ [_ [Rf _]]] [_ [Hh _]]].
      unfold fv, HS. rewrite (ring_right X h' a x y Rf Hx), (cl_HS_right X h' (ids M') x y (hol h' a) Hh Hx). reflexivity.
    + apply Forall_app. split; assumption.
    + intros Ef. apply Forall_app. split; [apply Fh; exact Ef|apply Gp; exact Ef].
    + intros Ef. destruct (T_good _ _ _ _ _ _ _ _ _ T' Ef) as [G1 G2 G3 _]. split; [exact G1|]. split; [intros i Hi; apply (G2 i); left; rewrite app_nil_r; exact Hi|].
      apply Forall_app. split; [apply (Gd Ef)|]. apply Tp. intros a Ha. split; [apply G3; exact Ha|]. apply (G2 a). right. exact Ha.
Qed.

(* ---------- the edges of a column ---------- *)
Definition dc (V : list vertex) (x y : Z) : Z := cnt V x y - cnt V (x - 1) y.
Lemma dc_app V V' x y : dc (V ++ V') x y = dc V x y + dc V' x y.
Proof. unfold dc. rewrite !cnt_app. lia. Qed.
Lemma dc_cons v V x y : dc (v :: V) x y = (if (vx v =? x) && (vy v <=? y) then vc v else 0) + dc V x y.
Proof.
  unfold dc. cbn [cnt]. destruct (Z.eqb_spec (vx v) x), (Z.leb_spec (vx v) x), (Z.leb_spec (vx v) (x - 1)), (Z.leb_spec (vy v) y); cbn [andb]; lia.
Qed.
Lemma dc_nil x y : dc [] x y = 0.
Proof. reflexivity. Qed.
Lemma dc_above V x y y' : Forall (fun v => vx v = x -> vy v <= y) V -> y <= y' -> dc V x y' = dc V x y.
Proof.
  induction 1 as [|v V H _ IH]; intros L; [reflexivity|]. rewrite !dc_cons, IH by exact L.
  destruct (Z.eqb_spec (vx v) x) as [E|E]; cbn [andb]; [|reflexivity]. specialize (H E). replace (vy v <=? y') with true by lia. replace (vy v <=? y) with true by lia. reflexivity.
Qed.
Lemma dc_zero V x y : Forall (fun v => vx v = x -> y < vy v) V -> dc V x y = 0.
Proof.
  induction 1 as [|v V H _ IH]; [reflexivity|]. rewrite dc_cons, IH. destruct (Z.eqb_spec (vx v) x) as [E|E]; cbn [andb]; [|reflexivity]. specialize (H E). replace (vy v <=? y) with false by lia. reflexivity.
Qed.
Lemma dc_total V x y : Forall (fun v => vx v = x -> vy v <= y) V -> dc V x y = col_total V x.
Proof.
  induction 1 as [|v V H _ IH]; [reflexivity|]. rewrite dc_cons, IH. cbn [col_total]. destruct (Z.eqb_spec (vx v) x) as [E|E]; cbn [andb]; [|reflexivity]. specialize (H E). replace (vy v <=? y) with true by lia. reflexivity.
Qed.
Lemma sorted_split (P : list vertex) v R : StronglySorted canon_le (P ++ v :: R) ->
  Forall (fun u => canon_le u v) P /\ Forall (fun u => canon_le v u) R.
Proof.
  induction P as [|u P IH]; cbn [app]; intros S; inversion S as [|? ? S1 F]; subst.
  - split; [constructor|exact F].
  - destruct (IH S1) as [A B]. split; [|exact B]. constructor; [|exact A]. rewrite Forall_forall in F. apply F. apply in_or_app. right. left. reflexivity.
Qed.
Lemma canon_same V v w : canonical V -> In v V -> In w V -> vx v = vx w -> vy v = vy w -> vc v = vc w.
Proof.
  intros [_ S] Hv Hw Ex Ey. destruct (in_split v V Hv) as [P [R ->]]. destruct (sorted_split P v R S) as [A B].
  rewrite Forall_forall in A, B. apply in_app_or in Hw. destruct Hw as [Hw|[->|Hw]]; [|reflexivity|].
  - specialize (A w Hw). unfold canon_le, pos_lt in A. lia.
  - specialize (B w Hw). unfold canon_le, pos_lt in B. lia.
Qed.
Lemma ptotal_member V w : canonical V -> In w V -> ptotal V (vx w) (vy w) <> 0.
Proof.
  intros C Hw. assert (U : vc w = 1 \/ vc w = -1) by (destruct C as [U _]; rewrite Forall_forall in U; exact (U w Hw)).
  assert (Sg : forall V', incl V' V -> 0 <= vc w * ptotal V' (vx w) (vy w) /\ (In w V' -> 0 < vc w * ptotal V' (vx w) (vy w))).
  { induction V' as [|v V' IH]; intros Hi; cbn [ptotal]; [split; [lia|intros []]|]. destruct IH as [I1 I2]; [intros u Hu; apply Hi; right; exact Hu|].
    destruct (Z.eqb_spec (vx v) (vx w)) as [E1|E1], (Z.eqb_spec (vy v) (vy w)) as [E2|E2]; cbn [andb].
    - rewrite (canon_same V v w C (Hi v (or_introl eq_refl)) Hw E1 E2). rewrite Z.mul_add_distr_l. split; [nia|intros _; nia].
    - split; [lia|]. intros [->|Hin]; [congruence|apply I2 in Hin; lia].
    - split; [lia|]. intros [->|Hin]; [congruence|apply I2 in Hin; lia].
    - split; [lia|]. intros [->|Hin]; [congruence|apply I2 in Hin; lia]. }
  destruct (Sg V (incl_refl V)) as [_ K]. specialize (K Hw). intros E. rewrite E in K. lia.
Qed.
Lemma edges_snoc l : forall p a b, edges_ok p l -> (forall e, In e l -> snd e < a) -> p <= a -> a < b -> is_int a -> is_int b -> edges_ok p (l ++ [(a, b)]).
Proof.
  induction l as [|[c d] l IH]; intros p a b E H L1 L2 I1 I2; cbn [app edges_ok]; [tauto|]. cbn [edges_ok] in E. destruct E as [E1 [E2 [E3 [E4 E5]]]].
  split; [exact E1|]. split; [exact E2|]. split; [exact E3|]. split; [exact E4|]. pose proof (H (c, d) (or_introl eq_refl)) as K. cbn [snd] in K. apply IH; [exact E5|intros e He; apply H; right; exact He|lia|exact L2|exact I1|exact I2].
Qed.
Lemma row_in_rev y l : row_in y (rev l) <-> row_in y l.
Proof. unfold row_in. split; intros [e [H K]]; exists e; (split; [|exact K]); [apply in_rev; exact H|apply in_rev; rewrite rev_involutive; exact H]. Qed.

(* the edges found below the row Y on one side *)
Definition einv (D : Z -> Z) (c Y : Z) (l : list edge) : Prop :=
  edges_ok (INT_MIN - 1) (rev l) /\ (forall e, In e l -> snd e <= Y) /\ forall y, y < Y -> (D y = c <-> row_in y l).
Lemma einv_nil (D : Z -> Z) c Y : c <> 0 -> (forall y, y < Y -> D y = 0) -> einv D c Y [].
Proof. intros N H. split; [exact I|]. split; [intros e []|]. intros y L. rewrite H by exact L. split; [congruence|]. intros [e [[] _]]. Qed.
Lemma einv_skip D c Y Y' l : einv D c Y l -> Y <= Y' -> (forall y, Y <= y < Y' -> D y <> c) -> einv D c Y' l.
Proof.
  intros [E [B R]] L H. split; [exact E|]. split; [intros e He; specialize (B e He); lia|]. intros y Ly. destruct (Z_lt_dec y Y) as [C|C]; [apply R; exact C|].
  split; [intros K; exfalso; apply (H y); [lia|exact K]|]. intros [e [He K]]. specialize (B e He). lia.
Qed.
Lemma einv_add D c Y Y' l : einv D c Y l -> Y < Y' -> (forall y, Y <= y < Y' -> D y = c) -> D (Y - 1) <> D Y -> is_int Y -> is_int Y' ->
  add_edge (Y, Y') l = (Y, Y') :: l /\ einv D c Y' (add_edge (Y, Y') l).
Proof.
  intros [E [B R]] L H N I1 I2.
  assert (St : forall e, In e l -> snd e < Y).
  { intros e He. pose proof (B e He). destruct (Z.eq_dec (snd e) Y) as [Q|Q]; [exfalso|lia]. apply N. rewrite (H Y) by lia. apply R; [lia|]. exists e. split; [exact He|].
    assert (Hr : In e (rev l)) by (apply in_rev in He; exact He). destruct (edges_lows _ _ _ E Hr) as [_ [K _]]. lia. }
  assert (Ea : add_edge (Y, Y') l = (Y, Y') :: l).
  { unfold add_edge. cbn [fst snd]. destruct l as [|[a b] l']; [reflexivity|]. pose proof (St (a, b) (or_introl eq_refl)) as K. cbn [snd] in K. replace (b =? Y) with false by lia. reflexivity. }
  split; [exact Ea|]. rewrite Ea. split; [|split].
  - cbn [rev]. apply edges_snoc; [exact E|intros e He; apply St; apply in_rev; exact He|unfold is_int in I1; lia|exact L|exact I1|exact I2].
  - intros e [<-|He]; [cbn [snd]; lia|]. specialize (B e He). lia.
  - intros y Ly. destruct (Z_lt_dec y Y) as [C|C].
    + rewrite (R y C). split; intros [e [He K]]; [exists e; split; [right; exact He|exact K]|]. destruct He as [<-|He]; [cbn [fst] in K; lia|]. exists e. split; assumption.
    + split; [|intros _; apply H; lia]. intros _. exists (Y, Y'). split; [left; reflexivity|cbn [fst snd]; lia].
Qed.

(* ---------- the scan ---------- *)
Definition fdone (V : list vertex) (fr : bool) (o : orient) (ps : list poly90) : Prop :=
  Forall formed ps /\ (fr = true -> Forall (fun p => p_holes p = []) ps) /\ (forall x y, turn o (polys_winding ps) x y = cnt V x y) /\ (fr = false -> Forall (tight (turn o (reg V))) ps).

Lemma cnt_quiet (P R : list vertex) X X' x y : Forall (fun v => vx v <= X) P -> Forall (fun v => X' <= vx v) R -> X <= x < X' -> cnt (P ++ R) x y = cnt (P ++ R) X y.
Proof.
  intros HP HR L. rewrite !cnt_app. rewrite (cnt_done_const P X x y HP) by lia. f_equal.
  rewrite !cnt_left; [reflexivity|eapply Forall_impl; [|exact HR]; intros v Hv; cbn beta in Hv; lia|eapply Forall_impl; [|exact HR]; intros v Hv; cbn beta in Hv; lia].
Qed.

Lemma column_edges V done w rest lefts rights : clean_data V -> V = done ++ w :: rest -> Forall (fun v => vx v <> vx w) rest ->
  einv (dc V (vx w)) 1 (vy w) lefts -> einv (dc V (vx w)) (-1) (vy w) rights ->
  rem_ok (INT_MIN - 1) (cnt V (vx w - 1)) (cnt V (vx w)) (rev lefts) (rev rights).
Proof.
  intros CD EV HR [EL [BL RL]] [ER [BR RR]]. pose proof (cd_canon V CD) as [_ S]. rewrite EV in S. destruct (sorted_split _ _ _ S) as [SA _].
  assert (HV : Forall (fun v => vx v = vx w -> vy v <= vy w) V).
  { rewrite EV. apply Forall_app. split; [|constructor; [lia|]].
    - eapply Forall_impl; [|exact SA]. intros v Hv. unfold canon_le, pos_lt in Hv. cbn beta. lia.
    - eapply Forall_impl; [|exact HR]. intros v Hv. cbn beta in *. lia. }
  assert (Z0 : forall y, vy w <= y -> dc V (vx w) y = 0).
  { intros y Hy. rewrite (dc_above V (vx w) (vy w) y HV Hy), (dc_total V (vx w) (vy w) HV). apply (cd_closed V CD). }
  assert (G : forall c l, c <> 0 -> (forall e, In e l -> snd e <= vy w) -> (forall y, y < vy w -> (dc V (vx w) y = c <-> row_in y l)) -> forall y, dc V (vx w) y = c <-> row_in y l).
  { intros c l N B R y. destruct (Z_lt_dec y (vy w)) as [C|C]; [apply R; exact C|]. rewrite Z0 by lia. split; [congruence|]. intros [e [He K]]. specialize (B e He). lia. }
  split; [exact EL|]. split; [exact ER|]. split; intros y _; rewrite row_in_rev.
  - rewrite <- (G 1 lefts ltac:(lia) BL RL y). unfold dc. pose proof (cd_01 V CD (vx w) y). pose proof (cd_01 V CD (vx w - 1) y). lia.
  - rewrite <- (G (-1) rights ltac:(lia) BR RR y). unfold dc. pose proof (cd_01 V CD (vx w) y). pose proof (cd_01 V CD (vx w - 1) y). lia.
Qed.

Lemma loop_polys V fr o : clean_data V -> dint V -> forall rest done w s lefts rights Xp out,
  V = done ++ w :: rest -> colinv V fr o Xp s out -> Xp < vx w -> (forall x y, Xp <= x < vx w -> cnt V x y = cnt V Xp y) ->
  einv (dc V (vx w)) 1 (vy w) lefts -> einv (dc V (vx w)) (-1) (vy w) rights ->
  exists ps, polys_loop fr o s (vx w) (vy w) (dc (done ++ [w]) (vx w) (vy w)) lefts rights rest out = Some ps /\ fdone V fr o ps.
Proof.
  intros CD D. pose proof (cd_canon V CD) as Can. pose proof Can as [_ Srt]. pose proof (cd_closed V CD) as Cl.
  assert (Iv : forall v, In v V -> is_int (vx v) /\ is_int (vy v)) by (intros v Hv; unfold dint in D; rewrite Forall_forall in D; exact (D v Hv)).
  induction rest as [|v rest IH]; intros done w s lefts rights Xp out EV Ci L Cx EL ER.
  - cbn [polys_loop]. destruct (process_ok V fr o Xp (vx w) s out (rev lefts) (rev rights) CD D Ci L) as [s' [ps [E Ci']]];
      [apply Iv; rewrite EV; apply in_or_app; right; left; reflexivity|exact Cx|exact (column_edges V done w [] lefts rights CD EV (Forall_nil _) EL ER)|].
    rewrite E. cbn [bind]. exists (out ++ ps). split; [reflexivity|]. destruct Ci' as [h [n [M [-> [S [K [Ss [_ [_ [Zr [Fo [Fh Gd]]]]]]]]]]]]. split; [exact Fo|]. split; [exact Fh|]. split; [|intros Ef; apply (Gd Ef)].
    assert (HX : Forall (fun u => vx u <= vx w) V).
    { pose proof Srt as Srt'. rewrite EV in Srt'. destruct (sorted_split _ _ _ Srt') as [SA _]. rewrite EV. apply Forall_app. split; [|constructor; [lia|constructor]].
      eapply Forall_impl; [|exact SA]. intros u Hu. unfold canon_le, pos_lt in Hu. cbn beta. lia. }
    assert (Z0 : forall x y, vx w <= x -> cnt V x y = 0).
    { intros x y Hx. rewrite cnt_right; [apply rows_closed_prefix; apply Cl|]. eapply Forall_impl; [|exact HX]. intros u Hu. cbn beta in *. lia. }
    assert (EM : M = []).
    { destruct M as [|[k i] M']; [reflexivity|exfalso]. assert (B : bd (cnt V (vx w)) k) by (apply K; left; reflexivity). unfold bd in B. rewrite !Z0 in B by lia. tauto. }
    subst M. intros x y. destruct (Z_lt_dec x (vx w)) as [C|C]; [|rewrite Z0, Zr by lia; reflexivity].
    destruct (s_cell _ _ _ _ _ _ Ss x y C) as [[q1 [q2 [Eq [_ Ec]]]] _ _ _]. destruct q1; [|discriminate Eq]. change (zsum (HS h x y) (ids [])) with 0 in Ec. unfold odd_len in Ec. cbn [length Nat.odd Nat.even negb b2z] in Ec. cbn in Ec. lia.
  - assert (EV' : V = (done ++ [w]) ++ v :: rest) by (rewrite EV, <- app_assoc; reflexivity).
    pose proof Srt as Srt1. rewrite EV in Srt1. destruct (sorted_split _ _ _ Srt1) as [SA1 SB1].
    pose proof Srt as Srt2. rewrite EV' in Srt2. destruct (sorted_split _ _ _ Srt2) as [SA2 SB2].
    assert (Hw : In w V) by (rewrite EV; apply in_or_app; right; left; reflexivity).
    assert (Hv : In v V) by (rewrite EV'; apply in_or_app; right; left; reflexivity).
    assert (Cwv : canon_le w v) by (inversion SB1; assumption).
    cbn [polys_loop]. destruct (Z.eqb_spec (vx v) (vx w)) as [Ex|Ex]; cbn [negb].
    + (* the same column *)
      assert (Ly : vy w <= vy v) by (unfold canon_le, pos_lt in Cwv; lia).
      assert (HP : Forall (fun u => vx u = vx w -> vy u <= vy w) (done ++ [w])).
      { apply Forall_app. split; [|constructor; [lia|constructor]]. eapply Forall_impl; [|exact SA1]. intros u Hu. unfold canon_le, pos_lt in Hu. cbn beta. lia. }
      assert (Dy : forall y, vy w <= y < vy v -> dc V (vx w) y = dc (done ++ [w]) (vx w) (vy w)).
      { intros y Hy. rewrite EV', dc_app, (dc_above (done ++ [w]) (vx w) (vy w) y HP) by lia. rewrite (dc_zero (v :: rest)); [lia|]. constructor; [lia|].
        eapply Forall_impl; [|exact SB2]. intros u Hu. unfold canon_le, pos_lt in Hu. cbn beta. lia. }
      assert (Dn : dc ((done ++ [w]) ++ [v]) (vx w) (vy v) = dc (done ++ [w]) (vx w) (vy w) + vc v).
      { rewrite dc_app, (dc_above (done ++ [w]) (vx w) (vy w) (vy v) HP Ly), dc_cons, dc_nil. replace (vx v =? vx w) with true by lia. replace (vy v <=? vy v) with true by lia. cbn [andb]. lia. }
      rewrite <- Dn. destruct (Z.eqb_spec (dc (done ++ [w]) (vx w) (vy w)) 0) as [Ec|Ec]; [|destruct (Z.eqb_spec (vy v) (vy w)) as [Ey|Ey]]; cbn [negb andb].
      * rewrite <- Ex. apply (IH (done ++ [w]) v s lefts rights Xp out EV' Ci); [lia|rewrite Ex; exact Cx| |]; rewrite Ex; (eapply einv_skip; [eassumption|exact Ly|intros y Hy; rewrite Dy by exact Hy; lia]).
      * rewrite <- Ex. apply (IH (done ++ [w]) v s lefts rights Xp out EV' Ci); [lia|rewrite Ex; exact Cx| |]; rewrite Ex, Ey; assumption.
      * assert (Lt : vy w < vy v) by lia.
        assert (B1 : dc (done ++ [w]) (vx w) (vy w) = 1 \/ dc (done ++ [w]) (vx w) (vy w) = -1).
        { pose proof (Dy (vy w) ltac:(lia)) as K. unfold dc in K at 1. pose proof (cd_01 V CD (vx w) (vy w)). pose proof (cd_01 V CD (vx w - 1) (vy w)). lia. }
        assert (Nd : dc V (vx w) (vy w - 1) <> dc V (vx w) (vy w)).
        { pose proof (ptotal_member V w Can Hw) as K. rewrite ptotal_cnt in K. unfold dc. lia. }
        destruct B1 as [B1|B1]; rewrite B1; cbn [Z.eqb Pos.eqb].
        -- destruct (einv_add (dc V (vx w)) 1 (vy w) (vy v) lefts EL Lt) as [_ EL']; [intros y Hy; rewrite Dy by exact Hy; exact B1|exact Nd|apply Iv; exact Hw|apply Iv; exact Hv|].
           rewrite <- Ex. apply (IH (done ++ [w]) v s _ rights Xp out EV' Ci); [lia|rewrite Ex; exact Cx|rewrite Ex; exact EL'|]. rewrite Ex. eapply einv_skip; [exact ER|exact Ly|intros y Hy; rewrite Dy by exact Hy; lia].
        -- destruct (einv_add (dc V (vx w)) (-1) (vy w) (vy v) rights ER Lt) as [_ ER']; [intros y Hy; rewrite Dy by exact Hy; exact B1|exact Nd|apply Iv; exact Hw|apply Iv; exact Hv|].
           rewrite <- Ex. apply (IH (done ++ [w]) v s lefts _ Xp out EV' Ci); [lia|rewrite Ex; exact Cx| |rewrite Ex; exact ER']. rewrite Ex. eapply einv_skip; [exact EL|exact Ly|intros y Hy; rewrite Dy by exact Hy; lia].
    + (* the next column *)
      assert (Lx : vx w < vx v) by (unfold canon_le, pos_lt in Cwv; lia).
      destruct (process_ok V fr o Xp (vx w) s out (rev lefts) (rev rights) CD D Ci L) as [s' [ps [E Ci']]]; [apply Iv; exact Hw|exact Cx| |].
      { apply (column_edges V done w (v :: rest)); [exact CD|exact EV| |exact EL|exact ER]. constructor; [lia|]. eapply Forall_impl; [|exact SB2]. intros u Hu. unfold canon_le, pos_lt in Hu. cbn beta. lia. }
      rewrite E. cbn [bind].
      assert (HP : Forall (fun u => vx u <= vx w) (done ++ [w])).
      { apply Forall_app. split; [|constructor; [lia|constructor]]. eapply Forall_impl; [|exact SA1]. intros u Hu. unfold canon_le, pos_lt in Hu. cbn beta. lia. }
      replace (vc v) with (dc ((done ++ [w]) ++ [v]) (vx v) (vy v)).
      2:{ rewrite dc_app, dc_zero, dc_cons, dc_nil; [replace (vx v =? vx v) with true by lia; replace (vy v <=? vy v) with true by lia; cbn [andb]; lia|].
          eapply Forall_impl; [|exact HP]. intros u Hu. cbn beta in *. lia. }
      assert (D0 : forall y, y < vy v -> dc V (vx v) y = 0).
      { intros y Hy. apply dc_zero. rewrite EV'. apply Forall_app. split; [eapply Forall_impl; [|exact HP]; intros u Hu; cbn beta in *; lia|]. constructor; [lia|].
        eapply Forall_impl; [|exact SB2]. intros u Hu. unfold canon_le, pos_lt in Hu. cbn beta. lia. }
      apply (IH (done ++ [w]) v s' [] [] (vx w) (out ++ ps) EV' Ci' Lx); [|apply einv_nil; [lia|exact D0]|apply einv_nil; [lia|exact D0]].
      intros x y Hx. rewrite EV'. apply (cnt_quiet (done ++ [w]) (v :: rest) (vx w) (vx v)); [exact HP| |exact Hx]. constructor; [lia|].
      eapply Forall_impl; [|exact SB2]. intros u Hu. unfold canon_le, pos_lt in Hu. cbn beta. lia.
Qed.

Lemma get_polygons_spec V fr o : clean_data V -> dint V -> exists ps, get_polygons fr o V = Some ps /\ fdone V fr o ps.
Proof.
  intros CD D. unfold get_polygons. destruct V as [|v rest].
  - exists []. split; [reflexivity|]. split; [constructor|]. split; [constructor|]. split; [intros x y; destruct o; reflexivity|constructor].
  - set (V := v :: rest) in *. pose proof (cd_canon V CD) as Can. pose proof Can as [_ Srt]. pose proof (cd_closed V CD) as Cl.
    pose proof (sorted_split [] v rest Srt) as [_ SB].
    assert (Hv : In v V) by (left; reflexivity).
    assert (Iv : is_int (vx v)) by (unfold dint in D; rewrite Forall_forall in D; apply (D v Hv)).
    assert (Lx : vx v < INT_MAX).
    { destruct (Z.eq_dec (vx v) INT_MAX) as [E|E]; [exfalso|unfold is_int in Iv; lia]. apply (ptotal_member V v Can Hv). rewrite ptotal_cnt.
      assert (Z0 : forall x y, cnt V x y = 0).
      { intros x y. destruct (Z_lt_dec x (vx v)) as [C|C].
        - apply cnt_left. constructor; [lia|]. eapply Forall_impl; [|exact SB]. intros u Hu. unfold canon_le, pos_lt in Hu. cbn beta. lia.
        - destruct (Z.eq_dec (cnt V x y) 0) as [Q|Q]; [exact Q|]. apply (dint_cnt_outside V x y D Cl) in Q. lia. }
      rewrite !Z0. lia. }
    assert (HL : forall x y, x < vx v -> cnt V x y = 0).
    { intros x y C. apply cnt_left. constructor; [lia|]. eapply Forall_impl; [|exact SB]. intros u Hu. unfold canon_le, pos_lt in Hu. cbn beta. lia. }
    unfold V at 1. cbn [polys_loop]. replace (vx v =? INT_MAX) with false by lia. cbn [negb rev]. unfold process_edges at 1. cbn [length Nat.add edges_loop bind f_heap f_next f_map f_out map_option app].
    replace (vc v) with (dc ([] ++ [v]) (vx v) (vy v)).
    2:{ cbn [app]. rewrite dc_cons, dc_nil. replace (vx v =? vx v) with true by lia. replace (vy v <=? vy v) with true by lia. cbn [andb]. lia. }
    assert (D0 : forall y, y < vy v -> dc V (vx v) y = 0).
    { intros y Hy. apply dc_zero. constructor; [lia|]. eapply Forall_impl; [|exact SB]. intros u Hu. unfold canon_le, pos_lt in Hu. cbn beta. lia. }
    apply (loop_polys V fr o CD D rest [] v _ [] [] (vx v - 1) []); [reflexivity| |lia| |apply einv_nil; [lia|exact D0]|apply einv_nil; [lia|exact D0]].
    + exists (fun _ => None), O, []. split; [reflexivity|]. split; [constructor|]. split; [|split; [|split; [intros k i []|split; [intros _ i []|split; [|split; [constructor|split; [intros _; constructor|intros _; split; [|split; [intros i []|constructor]]]]]]]]].
      * intros k. split; [intros []|]. unfold bd. rewrite !HL by lia. tauto.
      * constructor.
        -- reflexivity.
        -- intros i [].
        -- split; [constructor|intros i []].
        -- constructor.
        -- intros x y C. constructor; [|intros i []|change (zsum (HS (fun _ => None) x y) (ids [])) with 0; lia|intros i []]. exists [], []. split; [reflexivity|]. split; [intros i []|]. rewrite HL by lia. destruct o; reflexivity.
        -- intros i [].
      * intros x y _. destruct o; reflexivity.
      * intros u i w t Eu. destruct u; discriminate Eu.
    + intros x y Hx. rewrite !HL by lia. reflexivity.
Qed.
