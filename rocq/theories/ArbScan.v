(* The whole scan: sorting, the stops of the scan line, the properties that are written out. *)
From Verif Require Import Base Units Outcome Scan90Spec Poly90Spec Poly90Model Poly90Proofs GeoSpec IvlModel RectModel SegModel PolyModel PolyEdge ScanBaseModel ScanBaseOab SnapModel SnapSpec SnapProofs SnapLoops ArbSpec ArbOrder ArbSums ArbModel ArbMaps ArbLess ArbLine ArbColumn.
From Coq Require Import Reals Lra Sorting.Sorted Sorting.Permutation.

Section scan.
  Variable l : list vprop.
  Hypothesis nod : noded (map fst l).
  Hypothesis ord : forall e, In e l -> ordered (fst e).
  Hypothesis fit : forall e, In e l -> fits (fst e).
  Hypothesis clo : closed l.
  Let E : list seg := map fst l.
  Let ordE : forall s, In s E -> ordered s := ordE l ord.
  Let fitE : forall s, In s E -> fits s := fitE l fit.

  Section stops.
    Hypothesis srt : StronglySorted ev_le (map fst l).
    Hypothesis inner : forall e, In e l -> INT_MIN < px (s_low (fst e)).

    Lemma shorter (dn dn' : list vprop) f r r1 : dn' ++ r1 = dn ++ f :: r -> ~ In f r1 -> (length r1 < length (f :: r))%nat.
    Proof.
      intros H N. apply app_eq_app in H as [z [[_ H]|[_ H]]].
      - destruct z as [|a z]; cbn [app] in H; [exfalso; apply N; rewrite <- H; left; reflexivity|]. rewrite H. cbn [length]. rewrite app_length. lia.
      - exfalso. apply N. rewrite H. apply in_or_app. right. left. reflexivity.
    Qed.
    Lemma scan_loop_ok : forall fuel rest dn X0 q d out, l = dn ++ rest -> (length rest <= fuel)%nat ->
      (forall f, In f dn -> px (s_low (fst f)) <= X0) -> (forall f, In f rest -> X0 < px (s_low (fst f))) ->
      good l d -> has l d (right_at X0) -> queue q d -> out_ok l (fun e => px (s_low e) <= X0) out ->
      exists out', scan_loop fuel rest q d out = Ok out' /\ out_ok l (fun _ => True) out'.
    Proof.
      induction fuel as [|fuel IH]; intros rest dn X0 q d out HL FU DN RE G Hd Q O.
      - destruct rest as [|f rest]; [|cbn [length] in FU; lia]. cbn [scan_loop].
        destruct (remove_retired_ok l nod ord fit INT_MAX (X0 + 1) q d G) as [q' [d' [-> _]]]; [|exact Q|cbn [obind]].
        + intros b B. assert (In (fst b) (map fst d)) as K by (apply in_map, B). apply Hd in K. unfold right_at in K. lia.
        + exists out. split; [reflexivity|]. apply (out_ext l _ _ _ O). intros e He. split; [auto|]. intros _. apply (in_parts l dn [] e HL) in He as [K|[]]. apply in_map_iff in K as [g [<- K]]. apply DN, K.
      - destruct rest as [|f rest].
        { replace (scan_loop (S fuel) [] q d out) with (scan_loop fuel [] q d out) by (destruct fuel; reflexivity). apply (IH [] dn X0 q d out); try assumption. cbn [length]. lia. }
        cbn [scan_loop]. set (X := px (s_low (fst f))).
        assert (Hf : In f l) by (rewrite HL; apply in_or_app; right; left; reflexivity).
        pose proof (fit f Hf) as Ff. pose proof (inner f Hf) as If. fold X in If.
        assert (chk (X - 1) = Ok (X - 1)) as ->.
        { unfold fits, coord_fits in Ff. fold X in Ff. unfold chk, INT_MIN, INT_MAX in *. rewrite (proj2 (andb_true_iff _ _)) by lia. reflexivity. }
        cbn [obind].
        assert (RX : forall g, In g (f :: rest) -> X <= px (s_low (fst g))).
        { intros g [<-|GI]; [unfold X; lia|]. pose proof (sorted_rest l srt dn f rest HL g GI) as S. unfold X. destruct S as [S|[S|[S _]]]; [lia|lia|rewrite <- S; lia]. }
        assert (XX : X0 < X) by (apply (RE f); left; reflexivity).
        assert (GAP : forall e, In e E -> px (s_low e) < X -> px (s_low e) <= X0).
        { intros e He K. apply (in_parts l dn (f :: rest) e HL) in He as [He|He]; apply in_map_iff in He as [g [<- GI]]; [apply DN, GI|]. apply RX in GI. lia. }
        destruct (remove_retired_ok l nod ord fit (X - 1) (X0 + 1) q d G) as [q1 [d1 [-> [G1 [Q1 M1]]]]]; [|exact Q|].
        { intros b B. assert (In (fst b) (map fst d)) as K by (apply in_map, B). apply Hd in K. unfold right_at in K. lia. }
        cbn [obind].
        assert (Hd1 : has l d1 (left_at X)).
        { intros e. split.
          - intros K. apply in_map_iff in K as [b [<- K]]. apply M1 in K as [K1 K2]. assert (In (fst b) (map fst d)) as K by (apply in_map, K1). apply Hd in K as [A [B C]]. split; [exact A|]. split; [exact B|]. unfold right_at in C. unfold left_at. lia.
          - intros [A [B C]]. unfold left_at in C. assert (In e (map fst d)) as K by (apply Hd; split; [exact A|]; split; [exact B|]; unfold right_at; pose proof (GAP e A); lia).
            apply in_map_iff in K as [b [K1 K2]]. apply in_map_iff. exists b. split; [exact K1|]. apply M1. split; [exact K2|]. rewrite K1. lia. }
        destruct (column_ok l nod ord fit clo srt X d1 dn f rest out G1 Hd1 HL) as [s [-> [[dn2 [CL CD]] CR CO [CS1 CS2]]]].
        { intros g GI. apply DN in GI. lia. }
        { reflexivity. }
        { apply (out_ext l _ _ _ O). intros e He. split; [lia|]. apply GAP, He. }
        cbn [obind]. cbv iota beta.
        assert (AL : forall b, In b d1 -> px (s_low (fst b)) < X <= px (s_high (fst b))).
        { intros b B. assert (In (fst b) (map fst d1)) as K by (apply in_map, B). apply Hd1 in K. apply K. }
        destruct (remove_retired_ok l nod ord fit X X q1 d1 G1 AL Q1) as [q2 [d2 [-> [G2 [Q2 M2]]]]]. cbn [obind].
        destruct (insert_new_ok l nod ord fit X (h_set s) q2 d2 G2) as [q3 [d3 [-> [G3 [Q3 M3]]]]].
        { intros b B. apply M2 in B as [B1 B2]. apply AL in B1. unfold right_at. lia. }
        { exact Q2. }
        { exact CS1. }
        cbn [obind]. apply (IH (h_rest s) dn2 X); try assumption.
        + assert (length (h_rest s) < length (f :: rest))%nat; [|lia]. apply (shorter dn dn2); [congruence|]. intros K. apply CR in K. unfold X in K. lia.
        + intros e. rewrite M3, CS2. split.
          * intros [[A [B C]]|K]; [split; [exact A|]; split; [exact B|]; unfold right_at, nv in *; lia|].
            apply in_map_iff in K as [b [<- K]]. apply M2 in K as [K1 K2]. pose proof (AL b K1) as K3. assert (In (fst b) (map fst d1)) as K by (apply in_map, K1). apply Hd1 in K as [A [B _]]. split; [exact A|]. split; [exact B|]. unfold right_at. lia.
          * intros [A [B C]]. unfold right_at in C. destruct (Z.eq_dec (px (s_low e)) X) as [K|K]; [left; auto|right].
            assert (In e (map fst d1)) as J by (apply Hd1; split; [exact A|]; split; [exact B|]; unfold left_at; lia). apply in_map_iff in J as [b [J1 J2]]. apply in_map_iff. exists b. split; [exact J1|]. apply M2. split; [exact J2|]. rewrite J1. lia.
    Qed.
    Lemma scan_ok : exists out, scan l = Ok out /\ out_ok l (fun _ => True) out.
    Proof.
      unfold scan. assert (C : l = [] \/ exists f rest, l = f :: rest) by (clear; destruct l as [|f rest]; [left|right; exists f, rest]; reflexivity).
      destruct C as [HL|[f [rest HL]]].
      { exists []. split; [rewrite HL; reflexivity|]. split; [intros o []|]. split; [|constructor]. intros e He. rewrite HL in He. destruct He. }
      apply (scan_loop_ok (length l) l [] (px (s_low (fst f)) - 1)).
      - reflexivity.
      - lia.
      - intros g [].
      - intros g GI. rewrite HL in GI. destruct GI as [<-|GI]; [lia|]. pose proof (sorted_rest l srt [] f rest HL g GI) as S. destruct S as [S|[S|[S _]]]; [lia|lia|rewrite <- S; lia].
      - apply good_nil.
      - intros e. cbn [map In]. split; [intros []|]. intros [A [_ B]]. unfold right_at in B. unfold E in A. apply in_map_iff in A as [g [<- GI]]. rewrite HL in GI. destruct GI as [<-|GI]; [lia|].
        pose proof (sorted_rest l srt [] f rest HL g GI) as S. destruct S as [S|[S|[S _]]]; [lia|lia|]. rewrite <- S in B. lia.
      - split; [constructor|]. intros p. cbn [In]. split; [intros []|]. intros [a [[] _]].
      - split; [intros o []|]. split; [|constructor]. intros e He K. exfalso. apply in_map_iff in He as [g [<- GI]]. rewrite HL in GI. destruct GI as [<-|GI]; [lia|].
        pose proof (sorted_rest l srt [] f rest HL g GI) as S. destruct S as [S|[S|[S _]]]; [lia|lia|]. rewrite <- S in K. lia.
    Qed.
  End stops.

  (* ---------- sorting ---------- *)
  Lemma half_in e x : px (s_low e) = x -> px (s_low e) < px (s_high e) -> inr e (IZR x + / 2).
  Proof. intros <- H. split; [apply izr_half_lt; lia|apply izr_half_gt; lia]. Qed.
  Lemma vd_less_ok a b : In a l -> In b l -> exists c, vd_less a b = Ok c /\ (c = false -> ev_le (fst b) (fst a)) /\ (c = true -> ev_le (fst a) (fst b)).
  Proof.
    intros A B. pose proof (in_map fst _ _ A) as Ea. pose proof (in_map fst _ _ B) as Eb. fold E in Ea, Eb. unfold vd_less. rewrite (pt_less_lex (s_low (fst a)) (s_low (fst b))), (pt_less_lex (s_low (fst b)) (s_low (fst a))). unfold lex_lt.
    destruct ((px (s_low (fst a)) <? px (s_low (fst b))) || ((px (s_low (fst a)) =? px (s_low (fst b))) && (py (s_low (fst a)) <? py (s_low (fst b))))) eqn:Q1.
    { exists true. split; [reflexivity|]. split; [discriminate|]. intros _. unfold ev_le. lia. }
    destruct ((px (s_low (fst b)) <? px (s_low (fst a))) || ((px (s_low (fst b)) =? px (s_low (fst a))) && (py (s_low (fst b)) <? py (s_low (fst a))))) eqn:Q2.
    { exists false. split; [reflexivity|]. split; [|discriminate]. intros _. unfold ev_le. lia. }
    assert (LW : s_low (fst a) = s_low (fst b)) by (apply eq_pt_iff; unfold eq_pt; lia). clear Q1 Q2.
    assert (GE : forall s t, In s E -> In t E -> s_low s = s_low t -> vertical_edge s = false -> vertical_edge t = true -> forall jb, he_less (px (s_low s)) jb s t = Ok (xorb jb true) /\ he_less (px (s_low t)) jb t s = Ok (xorb jb false)).
    { intros s t Hs Ht L V1 V2 jb. pose proof (nv_lt s (ordE s Hs) V1) as NV. apply vertical_edge_iff in V2. pose proof (ordE t Ht) as Ot. apply ordered_iff in Ot.
      pose proof (fitE s Hs) as Fs. pose proof (fitE t Ht) as Ft. unfold fits in Fs, Ft.
      assert (YL : py (s_low t) = py (s_low s)) by (rewrite L; reflexivity). assert (XL : px (s_low t) = px (s_low s)) by (rewrite L; reflexivity).
      unfold he_less, end_at. rewrite XL, YL, Z.eqb_refl.
      rewrite (proj2 (Z.ltb_ge (Z.max (py (s_low s)) (py (s_high s))) (Z.min (py (s_low s)) (py (s_high t))))) by lia.
      rewrite (proj2 (Z.ltb_ge (Z.max (py (s_low s)) (py (s_high t))) (Z.min (py (s_low s)) (py (s_high s))))) by lia.
      destruct (Z.gtb_spec (Z.min (py (s_low s)) (py (s_high s))) (Z.max (py (s_low s)) (py (s_high t)))) as [K|K]; [lia|clear K].
      destruct (Z.gtb_spec (Z.min (py (s_low s)) (py (s_high t))) (Z.max (py (s_low s)) (py (s_high s)))) as [K|K]; [lia|clear K].
      rewrite Z.ltb_irrefl, Z.eqb_refl.
      assert (NS : s <> t) by (intros K; subst t; lia).
      assert (S1 : seg_eqb s t = false) by (destruct (seg_eqb s t) eqn:Q; [apply seg_eqb_iff in Q; contradiction|reflexivity]).
      assert (S2 : seg_eqb t s = false) by (destruct (seg_eqb t s) eqn:Q; [apply seg_eqb_iff in Q; symmetry in Q; contradiction|reflexivity]).
      rewrite S1, S2, !int_diff_ok by lia. cbn [obind]. split; do 2 f_equal.
      - apply less_slope4_spec; [unfold dif; lia|unfold dif; lia|unfold dif; lia|unfold dif; lia|]. split; [lia|]. left. lia.
      - apply (bool_not _ _ (less_slope4_spec (px (s_high t) - px (s_low s)) (py (s_high t) - py (s_low s)) (px (s_high s) - px (s_low s)) (py (s_high s) - py (s_low s)) ltac:(unfold dif; lia) ltac:(unfold dif; lia) ltac:(unfold dif; lia) ltac:(unfold dif; lia))). intros [K _]. lia. }
    destruct (vertical_edge (fst a)) eqn:Va, (vertical_edge (fst b)) eqn:Vb.
    - assert (EQ : fst b = fst a).
      { destruct (vertical_lt l ord (fst a) Ea Va) as [_ Y1]. destruct (vertical_lt l ord (fst b) Eb Vb) as [_ Y2]. apply (overlap l nod ord (fst a) (fst b) Ea Eb Va Vb); [congruence|rewrite LW; exact Y2|rewrite <- LW; exact Y1]. }
      exists false. split; [|split; [|discriminate]].
      + destruct (vertical_lt l ord (fst a) Ea Va) as [_ Y1]. unfold he_less, end_at. rewrite EQ, Z.eqb_refl.
        rewrite (proj2 (Z.ltb_ge (Z.max (py (s_low (fst a))) (py (s_high (fst a)))) (Z.min (py (s_low (fst a))) (py (s_high (fst a)))))) by lia.
        destruct (Z.gtb_spec (Z.min (py (s_low (fst a))) (py (s_high (fst a)))) (Z.max (py (s_low (fst a))) (py (s_high (fst a))))) as [K|K]; [lia|clear K].
        rewrite Z.ltb_irrefl, Z.eqb_refl. rewrite (proj2 (seg_eqb_iff _ _) eq_refl). reflexivity.
      + intros _. unfold ev_le. right. right. split; [congruence|]. left. symmetry. exact EQ.
    - exists false. split; [|split; [|discriminate]].
      + destruct (GE (fst b) (fst a) Eb Ea (eq_sym LW) Vb Va false) as [_ K]. exact K.
      + intros _. right. right. split; [congruence|]. right. left. auto.
    - exists true. split; [|split; [discriminate|]].
      + destruct (GE (fst a) (fst b) Ea Eb LW Va Vb false) as [K _]. exact K.
      + intros _. right. right. split; [congruence|]. right. left. auto.
    - pose proof (nv_lt _ (ordE _ Ea) Va) as Na. pose proof (nv_lt _ (ordE _ Eb) Vb) as Nb. assert (XL : px (s_low (fst b)) = px (s_low (fst a))) by (rewrite LW; reflexivity).
      destruct (less_right E nod ordE fitE (fst a) (fst b) (px (s_low (fst a))) Ea Eb ltac:(lia) ltac:(lia) (or_introl eq_refl)) as [c [C1 C2]].
      exists c. split; [exact C1|]. split; intros ->.
      + right. right. split; [congruence|].
        destruct (lte_total E nod ordE (fst a) (fst b) (IZR (px (s_low (fst a))) + / 2) Ea Eb) as [K|[K|K]]; [apply half_in; [reflexivity|exact Na]|apply half_in; [exact XL|exact Nb]|left; symmetry; exact K| |right; right; auto].
        apply C2 in K. discriminate.
      + right. right. split; [congruence|]. right. right. split; [exact Va|]. apply C2. reflexivity.
  Qed.
  Lemma ev_trans a b c : In a E -> In b E -> In c E -> ev_le a b -> ev_le b c -> ev_le a c.
  Proof.
    intros Ha Hb Hc [A|[A|[A1 A2]]] [B|[B|[B1 B2]]]; try (unfold ev_le; lia); try (unfold ev_le; rewrite <- B1; lia); try (unfold ev_le; rewrite A1; lia).
    right. right. split; [congruence|]. destruct A2 as [->|[[A2 A3]|[A2 A3]]]; [exact B2| |].
    - destruct B2 as [->|[[B2 B3]|[B2 B3]]]; [right; left; auto|congruence|congruence].
    - destruct B2 as [->|[[B2 B3]|[B2 B3]]]; [right; right; auto|right; left; auto|right; right]. split; [exact A2|].
      destruct (lte_nv _ _ A3) as [Na Nb]. destruct (lte_nv _ _ B3) as [_ Nc].
      apply (lte_trans E nod ordE a b c (IZR (px (s_low a)) + / 2)); try assumption; apply half_in; try assumption; congruence.
  Qed.
  Definition ev_srt (m : list vprop) : Prop := StronglySorted (fun a b => ev_le (fst a) (fst b)) m.
  Lemma vd_insert_ok a m : In a l -> (forall b, In b m -> In b l) -> ev_srt m -> exists m', vd_insert a m = Ok m' /\ ev_srt m' /\ Permutation m' (a :: m).
  Proof.
    intros A. induction m as [|b m IH]; intros M S; cbn [vd_insert].
    - exists [a]. split; [reflexivity|]. split; [constructor; constructor|reflexivity].
    - assert (B : In b l) by (apply M; left; reflexivity). destruct (vd_less_ok b a B A) as [c [-> [C1 C2]]]. cbn [obind]. apply StronglySorted_inv in S as S'. destruct S' as [S1 S2]. rewrite Forall_forall in S2. destruct c.
      + destruct IH as [m' [-> [H1 H2]]]; [intros z Z; apply M; right; exact Z|exact S1|]. cbn [obind]. exists (b :: m'). split; [reflexivity|]. split.
        * constructor; [exact H1|]. apply Forall_forall. intros z Z. apply (Permutation_in _ H2) in Z as [<-|Z]; [apply C2; reflexivity|apply S2, Z].
        * rewrite H2. apply perm_swap.
      + exists (a :: b :: m). split; [reflexivity|]. split; [|reflexivity]. constructor; [exact S|]. apply Forall_forall. intros z Z. specialize (C1 eq_refl). destruct Z as [<-|Z]; [exact C1|].
        apply (ev_trans _ (fst b)); [apply in_map, A|apply in_map, B|apply in_map, M; right; exact Z|exact C1|apply S2, Z].
  Qed.
  Lemma vd_sort_gen m : (forall b, In b m -> In b l) -> exists m', vd_sort m = Ok m' /\ ev_srt m' /\ Permutation m' m.
  Proof.
    induction m as [|a m IH]; intros M; cbn [vd_sort]; [exists []; split; [reflexivity|]; split; [constructor|reflexivity]|].
    destruct IH as [r [-> [S P]]]; [intros b B; apply M; right; exact B|]. cbn [obind].
    destruct (vd_insert_ok a r) as [m' [-> [S' P']]]; [apply M; left; reflexivity|intros b B; apply M; right; apply (Permutation_in _ P B)|exact S|]. exists m'. split; [reflexivity|]. split; [exact S'|]. rewrite P'. apply perm_skip, P.
  Qed.
  Lemma vd_sort_ok : exists m, vd_sort l = Ok m /\ ev_srt m /\ Permutation m l.
  Proof. apply vd_sort_gen. auto. Qed.
End scan.

(* ---------- order does not matter ---------- *)
Lemma tot_perm {A : Type} (f : A -> Z) a b : Permutation a b -> tot f a = tot f b.
Proof. intros P. induction P; cbn [tot]; lia. Qed.
Lemma noded_in a b : (forall s, In s b -> In s a) -> noded a -> noded b.
Proof. intros H N s t x y Hs Ht. apply N; apply H; assumption. Qed.
Lemma ev_srt_map m : ev_srt m -> StronglySorted ev_le (map fst m).
Proof. intros H. induction H as [|a m H IH F]; [constructor|]. cbn [map]. constructor; [exact IH|]. rewrite Forall_forall in *. intros s S. apply in_map_iff in S as [b [<- S]]. apply F, S. Qed.

Lemma cover_unique_ext d d' a b : (forall k, d k = d' k) -> cover_list d a -> cover_list d' b -> a = b.
Proof. intros H A B. apply (cover_list_unique d'); [|exact B]. apply (cover_list_ext d); assumption. Qed.

Section sides.
  Variable l : list vprop.
  Hypothesis nod : noded (map fst l).
  Hypothesis ord : forall e, In e l -> ordered (fst e).
  Hypothesis clo : closed l.
  Let ordE : forall s, In s (map fst l) -> ordered s := ordE l ord.
  Lemma sides_iff e L R : In e (map fst l) -> (sides l e L R <-> cover_list (lside l e) L /\ cover_list (rside l e) R).
  Proof.
    intros He. pose proof (ordE e He) as O. unfold sides, lside, rside. destruct (vertical_edge e) eqn:V.
    - assert (Vx : px (s_low e) = px (s_high e)) by (apply vertical_edge_iff, V). assert (Vy : py (s_low e) < py (s_high e)) by (apply ordered_iff in O; lia). apply IZR_lt in Vy as Vr. split.
      + intros [[K _]|[_ H]]; [lia|]. destruct (H ((IZR (py (s_low e)) + IZR (py (s_high e))) / 2)%R) as [A B]; [lra|]. split.
        * refine (cover_list_ext _ _ _ _ A). intros k. cbv beta. apply (along_vertical_l l nod ord k e); [exact He|exact V|lra].
        * refine (cover_list_ext _ _ _ _ B). intros k. cbv beta. apply (along_vertical_r l nod ord k e); [exact He|exact V|lra].
      + intros [A B]. right. split; [exact Vx|]. intros y Y. split.
        * refine (cover_list_ext _ _ _ _ A). intros k. cbv beta. symmetry. apply (along_vertical_l l nod ord k e); [exact He|exact V|lra].
        * refine (cover_list_ext _ _ _ _ B). intros k. cbv beta. symmetry. apply (along_vertical_r l nod ord k e); [exact He|exact V|lra].
    - pose proof (nv_lt e O V) as N. apply IZR_lt in N as Nr. split.
      + intros [[_ H]|[K _]]; [|lia]. destruct (H ((IZR (px (s_low e)) + IZR (px (s_high e))) / 2)%R) as [A B]; [lra|]. split.
        * refine (cover_list_ext _ _ _ _ A). intros k. cbv beta. apply (cum_at l nod ord clo k e); [exact He|unfold inr; lra].
        * refine (cover_list_ext _ _ _ _ B). intros k. cbv beta. apply (cumb_at l nod ord clo k e); [exact He|unfold inr; lra].
      + intros [A B]. left. split; [exact N|]. intros x X. split.
        * refine (cover_list_ext _ _ _ _ A). intros k. cbv beta. symmetry. apply (cum_at l nod ord clo k e); [exact He|unfold inr; lra].
        * refine (cover_list_ext _ _ _ _ B). intros k. cbv beta. symmetry. apply (cumb_at l nod ord clo k e); [exact He|unfold inr; lra].
  Qed.
End sides.
Lemma sides_perm a b e L R : Permutation a b -> sides a e L R -> sides b e L R.
Proof.
  intros P [[N H]|[V H]]; [left|right]; (split; [assumption|]); intros z Z; destruct (H z Z) as [A B]; (split; [revert A|revert B]); apply cover_list_ext; intros k; unfold depth_above, depth_below, depth_below_left; apply tot_perm, P.
Qed.

Theorem scan_main (l : list vprop) : noded (map fst l) -> (forall e, In e l -> ordered (fst e) /\ fits (fst e) /\ INT_MIN < px (s_low (fst e))) -> closed l ->
  exists data out, vd_sort l = Ok data /\ scan data = Ok out /\ NoDup (map fst out) /\
    (forall e L R, In (e, (L, R)) out <-> In e (map fst l) /\ sides l e L R /\ L <> R).
Proof.
  intros nod H clo. assert (ord : forall e, In e l -> ordered (fst e)) by (intros e K; apply H, K). assert (fit : forall e, In e l -> fits (fst e)) by (intros e K; apply H, K).
  destruct (vd_sort_ok l nod ord fit) as [data [S1 [S2 P]]].
  assert (IN : forall e, In e data -> In e l) by (intros e K; apply (Permutation_in _ P K)).
  assert (INS : forall s, In s (map fst data) <-> In s (map fst l)).
  { intros s. split; apply Permutation_in; [|symmetry]; apply Permutation_map, P. }
  assert (nod' : noded (map fst data)) by (apply (noded_in (map fst l)); [intros s K; apply INS, K|exact nod]).
  assert (ord' : forall e, In e data -> ordered (fst e)) by (intros e K; apply ord, IN, K).
  assert (clo' : closed data) by (intros k v; rewrite !(tot_perm _ _ _ P); apply clo).
  destruct (scan_ok data nod' ord' (fun e K => fit e (IN e K)) clo' (ev_srt_map data S2) (fun e K => proj2 (proj2 (H e (IN e K))))) as [out [S3 [O1 [O2 O3]]]].
  exists data, out. split; [exact S1|]. split; [exact S3|]. split; [exact O3|]. intros e L R. split.
  - intros K. destruct (O1 _ K) as [A [_ [B [C D]]]]. cbn [fst snd] in *. split; [apply INS, A|]. split; [|exact D]. apply (sides_perm data l); [exact P|]. apply (sides_iff data nod' ord' clo'); [exact A|]. auto.
  - intros [A [B C]]. apply INS in A. apply (sides_perm l data) in B; [|symmetry; exact P]. apply (sides_iff data nod' ord' clo') in B; [|exact A]. destruct B as [B1 B2].
    destruct (O2 e A I) as [K|K]; [|exfalso; apply C, K; assumption]. apply in_map_iff in K as [[e' [L' R']] [K1 K2]]. cbn [fst] in K1. subst e'.
    destruct (O1 _ K2) as [_ [_ [Q1 [Q2 _]]]]. cbn [fst snd] in Q1, Q2. rewrite (cover_list_unique _ _ _ B1 Q1), (cover_list_unique _ _ _ B2 Q2). exact K2.
Qed.
