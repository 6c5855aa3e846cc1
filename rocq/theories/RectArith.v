(* Lemmas about the arithmetic of points and rectangles. *)
From Verif Require Import Base Scan90Spec Set90Spec Set90Model GeoSpec IvlModel IvlProofs RectModel RectProofs.
From Verif Require Import IsoModel.

(* ---------- maps of rectangles ---------- *)
Lemma r_both_inv f g r r' : r_both f g r = Ok r' -> f (horizontal r) = Ok (horizontal r') /\ g (vertical r) = Ok (vertical r').
Proof.
  unfold r_both. intros H. apply obind_inv in H as [h [H1 H]]. apply obind_inv in H as [v [H2 H]]. injection H as <-.
  rewrite horizontal_of, vertical_of. auto.
Qed.
Lemma rect_eta r : r_of_ivls (horizontal r) (vertical r) = r.
Proof. destruct r; reflexivity. Qed.
Lemma r_both_ok f g r h v : f (horizontal r) = Ok h -> g (vertical r) = Ok v -> r_both f g r = Ok (r_of_ivls h v).
Proof. unfold r_both. intros -> H. cbn [obind]. rewrite H. reflexivity. Qed.
Lemma r_both_defined f g r : (exists r', r_both f g r = Ok r') <-> (exists h, f (horizontal r) = Ok h) /\ (exists v, g (vertical r) = Ok v).
Proof.
  split.
  - intros [r' H]. cbv delta [r_convolve_pt r_deconvolve_pt r_convolve r_deconvolve r_reflected_convolve r_scale_up] in H; apply r_both_inv in H as [H K]; cbv beta in H, K. split; eexists; eassumption.
  - intros [[h H] [v K]]. eexists. apply r_both_ok; eassumption.
Qed.
Lemma rect_int_ivls r : rect_int r <-> ivl_int (horizontal r) /\ ivl_int (vertical r).
Proof. unfold rect_int, ivl_int, horizontal, vertical; cbn [lo hi]. tauto. Qed.

Lemma r_convolve_pt_spec r p r' : r_convolve_pt r p = Ok r' ->
  forall touch q, in_rectq touch r' q <-> in_rectq touch r (fst q - inject_Z (px p), snd q - inject_Z (py p))%Q.
Proof.
  intros H. cbv delta [r_convolve_pt r_deconvolve_pt r_convolve r_deconvolve r_reflected_convolve r_scale_up] in H; apply r_both_inv in H as [H K]; cbv beta in H, K. intros touch q. unfold in_rectq; cbn [fst snd].
  rewrite (convolve_v_spec _ _ _ H), (convolve_v_spec _ _ _ K). reflexivity.
Qed.
Lemma r_deconvolve_pt_spec r p r' : r_deconvolve_pt r p = Ok r' ->
  forall touch q, in_rectq touch r' q <-> in_rectq touch r (fst q + inject_Z (px p), snd q + inject_Z (py p))%Q.
Proof.
  intros H. cbv delta [r_convolve_pt r_deconvolve_pt r_convolve r_deconvolve r_reflected_convolve r_scale_up] in H; apply r_both_inv in H as [H K]; cbv beta in H, K. intros touch q. unfold in_rectq; cbn [fst snd].
  rewrite (deconvolve_v_spec _ _ _ H), (deconvolve_v_spec _ _ _ K). reflexivity.
Qed.
Lemma r_convolve_pt_inverse r p r' : rect_int r -> r_convolve_pt r p = Ok r' -> r_deconvolve_pt r' p = Ok r.
Proof.
  intros I H. apply rect_int_ivls in I as [I J]. cbv delta [r_convolve_pt r_deconvolve_pt r_convolve r_deconvolve r_reflected_convolve r_scale_up] in H; apply r_both_inv in H as [H K]; cbv beta in H, K.
  unfold r_deconvolve_pt. rewrite (r_both_ok _ _ _ (horizontal r) (vertical r)); [rewrite rect_eta; reflexivity|..];
  apply convolve_v_roundtrip; assumption.
Qed.
Lemma r_convolve_spec r s r' : rect_ok r -> rect_ok s -> r_convolve r s = Ok r' ->
  rect_ok r' /\ forall q, in_rectq true r' q <->
    exists a b, in_rectq true r a /\ in_rectq true s b /\ same_pt q (fst a + fst b, snd a + snd b)%Q.
Proof.
  intros A B H. rewrite rect_ok_ivls in A, B. destruct A as [A1 A2], B as [B1 B2]. cbv delta [r_convolve_pt r_deconvolve_pt r_convolve r_deconvolve r_reflected_convolve r_scale_up] in H; apply r_both_inv in H as [H K]; cbv beta in H, K.
  apply convolve_spec in H as [H1 H2]; [|assumption..]. apply convolve_spec in K as [K1 K2]; [|assumption..].
  split; [rewrite rect_ok_ivls; auto|]. intros q. unfold in_rectq. rewrite H2, K2. split.
  - intros [[a [b [P [Q R]]]] [a' [b' [P' [Q' R']]]]]. exists (a, a'), (b, b'). cbn [fst snd]. unfold same_pt; cbn [fst snd]. tauto.
  - intros [[a a'] [[b b'] [[P P'] [[Q Q'] [R R']]]]]. cbn [fst snd] in *. split; [exists a, b|exists a', b']; auto.
Qed.
Lemma r_convolve_inverse r s r' : rect_int r -> r_convolve r s = Ok r' -> r_deconvolve r' s = Ok r.
Proof.
  intros I H. apply rect_int_ivls in I as [I J]. cbv delta [r_convolve_pt r_deconvolve_pt r_convolve r_deconvolve r_reflected_convolve r_scale_up] in H; apply r_both_inv in H as [H K]; cbv beta in H, K.
  unfold r_deconvolve. rewrite (r_both_ok _ _ _ (horizontal r) (vertical r)); [rewrite rect_eta; reflexivity|..];
  apply convolve_roundtrip; assumption.
Qed.
Lemma r_deconvolve_spec r s r' : rect_ok s -> r_deconvolve r s = Ok r' ->
  forall q, in_rectq true r' q <-> forall b, in_rectq true s b -> in_rectq true r (fst q + fst b, snd q + snd b)%Q.
Proof.
  intros B H. rewrite rect_ok_ivls in B. destruct B as [B1 B2]. cbv delta [r_convolve_pt r_deconvolve_pt r_convolve r_deconvolve r_reflected_convolve r_scale_up] in H; apply r_both_inv in H as [H K]; cbv beta in H, K.
  pose proof (deconvolve_spec _ _ _ B1 H) as D1. pose proof (deconvolve_spec _ _ _ B2 K) as D2.
  intros q. unfold in_rectq. rewrite D1, D2. split.
  - intros [P Q] b [R S]. cbn [fst snd]. auto.
  - intros P. split; intros b R.
    + destruct (P (b, inject_Z (lo (vertical s)))) as [X _]; [split; [exact R|apply in_ivl_lo; exact B2]|exact X].
    + destruct (P (inject_Z (lo (horizontal s)), b)) as [_ X]; [split; [apply in_ivl_lo; exact B1|exact R]|exact X].
Qed.
Lemma r_reflected_convolve_spec r s r' : rect_ok r -> rect_ok s -> r_reflected_convolve r s = Ok r' ->
  rect_ok r' /\ forall q, in_rectq true r' q <->
    exists a b, in_rectq true r a /\ in_rectq true s b /\ same_pt q (fst a - fst b, snd a - snd b)%Q.
Proof.
  intros A B H. rewrite rect_ok_ivls in A, B. destruct A as [A1 A2], B as [B1 B2]. cbv delta [r_convolve_pt r_deconvolve_pt r_convolve r_deconvolve r_reflected_convolve r_scale_up] in H; apply r_both_inv in H as [H K]; cbv beta in H, K.
  apply reflected_convolve_spec in H as [H1 H2]; [|assumption..]. apply reflected_convolve_spec in K as [K1 K2]; [|assumption..].
  split; [rewrite rect_ok_ivls; auto|]. intros q. unfold in_rectq. rewrite H2, K2. split.
  - intros [[a [b [P [Q R]]]] [a' [b' [P' [Q' R']]]]]. exists (a, a'), (b, b'). cbn [fst snd]. unfold same_pt; cbn [fst snd]. tauto.
  - intros [[a a'] [[b b'] [[P P'] [[Q Q'] [R R']]]]]. cbn [fst snd] in *. split; [exists a, b|exists a', b']; auto.
Qed.
Lemma r_reflected_inverse r s r' : rect_int r -> r_reflected_convolve r s = Ok r' -> r_reflected_deconvolve r' s = Ok r.
Proof.
  intros I H. apply rect_int_ivls in I as [I J]. cbv delta [r_convolve_pt r_deconvolve_pt r_convolve r_deconvolve r_reflected_convolve r_scale_up] in H; apply r_both_inv in H as [H K]; cbv beta in H, K.
  unfold r_reflected_deconvolve. rewrite (r_both_ok _ _ _ (horizontal r) (vertical r)); [rewrite rect_eta; reflexivity|..];
  apply reflected_roundtrip; assumption.
Qed.

Lemma in_move_ivl i d k : k = mk_ivl (lo i + d) (hi i + d) -> forall touch q, in_ivl touch k q <-> in_ivl touch i (q - inject_Z d).
Proof. intros -> touch q. unfold in_ivl; cbn [lo hi]. rewrite !inject_Z_plus. destruct touch; split; intros; lra. Qed.
Lemma r_move_spec r o d r' : rect_int r -> is_int (lo (r_get r o) + d) -> is_int (hi (r_get r o) + d) -> r_move r o d = Ok r' ->
  forall touch q, in_rectq touch r' q <->
    in_rectq touch r (match o with Horizontal => (fst q - inject_Z d, snd q) | Vertical => (fst q, snd q - inject_Z d) end)%Q.
Proof.
  intros I A B H. apply rect_int_ivls in I as [I J]. unfold r_move in H. apply obind_inv in H as [k [H K]]. injection K as <-.
  intros touch q. unfold in_rectq. destruct o; cbn [r_get] in *; apply move_spec in H; try assumption.
  - rewrite horizontal_set_h, vertical_set_h; cbn [fst snd]. rewrite (in_move_ivl _ _ _ H). reflexivity.
  - rewrite horizontal_set_v, vertical_set_v; cbn [fst snd]. rewrite (in_move_ivl _ _ _ H). reflexivity.
Qed.
Lemma r_move_defined r o d : rect_int r -> - 2 ^ 62 <= d <= 2 ^ 62 -> exists r', r_move r o d = Ok r'.
Proof.
  intros I D. apply rect_int_ivls in I as [I J]. unfold r_move.
  destruct (move_defined (r_get r o) d) as [k H]; [destruct o; assumption|exact D|]. rewrite H. eexists; reflexivity.
Qed.

(* ---------- bloat and shrink ---------- *)
Lemma r_bloat_inv r b r' : r_bloat r b = Ok r' -> ivl_bloat (horizontal r) b = Ok (horizontal r') /\ ivl_bloat (vertical r) b = Ok (vertical r').
Proof.
  unfold r_bloat, r_bloat_o. intros H. apply obind_inv in H as [r1 [H1 H]]. apply obind_inv in H1 as [i [H1 H2]].
  assert (E1 : r1 = r_set r Horizontal i) by congruence. clear H2. subst r1.
  apply obind_inv in H as [j [H3 H]]. assert (E2 : r' = r_set (r_set r Horizontal i) Vertical j) by congruence. subst r'. cbn [r_get] in H1, H3.
  rewrite vertical_set_h in H3. rewrite horizontal_set_v, horizontal_set_h, vertical_set_v. auto.
Qed.
Lemma r_bloat_ok r b h v : ivl_bloat (horizontal r) b = Ok h -> ivl_bloat (vertical r) b = Ok v -> r_bloat r b = Ok (r_of_ivls h v).
Proof.
  intros H K. unfold r_bloat, r_bloat_o. cbn [r_get]. rewrite H. cbn [obind]. rewrite vertical_set_h, K. cbn [obind].
  destruct h, v; reflexivity.
Qed.
Lemma r_bloat_spec r b r' : rect_ok r -> 0 <= b -> r_bloat r b = Ok r' ->
  rect_ok r' /\ forall q, in_rectq true r' q <->
    exists p, in_rectq true r p /\ (Qabs (fst q - fst p) <= inject_Z b)%Q /\ (Qabs (snd q - snd p) <= inject_Z b)%Q.
Proof.
  intros A B H. rewrite rect_ok_ivls in A. destruct A as [A1 A2]. apply r_bloat_inv in H as [H K].
  apply bloat_spec in H as [H1 H2]; [|assumption..]. apply bloat_spec in K as [K1 K2]; [|assumption..].
  split; [rewrite rect_ok_ivls; auto|]. intros q. unfold in_rectq. rewrite H2, K2. split.
  - intros [[a [P Q]] [b' [R S]]]. exists (a, b'). auto.
  - intros [[a b'] [[P Q] [R S]]]. cbn [fst snd] in *. split; [exists a|exists b']; auto.
Qed.
Lemma r_shrink_spec r b r' : 0 <= b -> r_shrink r b = Ok r' ->
  (rect_ok r' <-> lo (horizontal r) + b <= hi (horizontal r) - b /\ lo (vertical r) + b <= hi (vertical r) - b) /\
  (rect_ok r' -> forall q, in_rectq true r' q <->
    forall p, (Qabs (fst p - fst q) <= inject_Z b)%Q -> (Qabs (snd p - snd q) <= inject_Z b)%Q -> in_rectq true r p).
Proof.
  intros B H. unfold r_shrink in H. apply obind_inv in H as [m [H1 H]]. pose proof H1 as H1'. apply chk_inv in H1' as [-> M].
  apply r_bloat_inv in H as [H K].
  assert (SH : ivl_shrink (horizontal r) b = Ok (horizontal r')) by (unfold ivl_shrink; rewrite chk_ok by exact M; exact H).
  assert (SV : ivl_shrink (vertical r) b = Ok (vertical r')) by (unfold ivl_shrink; rewrite chk_ok by exact M; exact K).
  pose proof (shrink_spec _ _ _ B SH) as [P1 P2]. pose proof (shrink_spec _ _ _ B SV) as [Q1 Q2].
  split; [rewrite rect_ok_ivls, P2, Q2; tauto|]. intros _ q. unfold in_rectq. rewrite P1, Q1.
  assert (Z0 : (Qabs 0 <= inject_Z b)%Q) by (change (inject_Z 0 <= inject_Z b)%Q; rewrite Zle_Q; exact B). split.
  - intros [P Q] p R S. split; auto.
  - intros P. split; intros p R.
    + destruct (P (p, snd q)) as [X _]; [exact R|cbn [snd]; rewrite (Qabs_wd _ 0) by ring; exact Z0|exact X].
    + destruct (P (fst q, p)) as [_ X]; [cbn [fst]; rewrite (Qabs_wd _ 0) by ring; exact Z0|exact R|exact X].
Qed.
Lemma r_bloat_shrink_inverse r b r' : rect_int r -> is_int (- b) -> r_bloat r b = Ok r' -> r_shrink r' b = Ok r.
Proof.
  intros I N H. apply rect_int_ivls in I as [I J]. apply r_bloat_inv in H as [H K].
  pose proof (bloat_shrink_roundtrip _ _ _ I N H) as P. pose proof (bloat_shrink_roundtrip _ _ _ J N K) as Q.
  unfold ivl_shrink in P, Q. rewrite chk_ok in P, Q by exact N. cbn [obind] in P, Q.
  unfold r_shrink. rewrite chk_ok by exact N. cbn [obind]. rewrite (r_bloat_ok _ _ _ _ P Q), rect_eta. reflexivity.
Qed.
(* one side only *)
Lemma r_bloat_dir_spec r o high b r' : r_bloat_dir r o high b = Ok r' ->
  r' = match o, high with
       | Horizontal, false => mk_rect (xl r - b) (xh r) (yl r) (yh r)
       | Horizontal, true => mk_rect (xl r) (xh r + b) (yl r) (yh r)
       | Vertical, false => mk_rect (xl r) (xh r) (yl r - b) (yh r)
       | Vertical, true => mk_rect (xl r) (xh r) (yl r) (yh r + b)
       end.
Proof.
  unfold r_bloat_dir. intros H. apply obind_inv in H as [i [H1 H]]. injection H as <-. apply bloat_dir_spec in H1 as ->.
  destruct o, high; reflexivity.
Qed.
Lemma r_shrink_dir_spec r o high b r' : r_shrink_dir r o high b = Ok r' ->
  r' = match o, high with
       | Horizontal, false => mk_rect (xl r + b) (xh r) (yl r) (yh r)
       | Horizontal, true => mk_rect (xl r) (xh r - b) (yl r) (yh r)
       | Vertical, false => mk_rect (xl r) (xh r) (yl r + b) (yh r)
       | Vertical, true => mk_rect (xl r) (xh r) (yl r) (yh r - b)
       end.
Proof.
  unfold r_shrink_dir. intros H. apply obind_inv in H as [m [H1 H]]. apply chk_inv in H1 as [-> _]. apply r_bloat_dir_spec in H as ->.
  destruct o, high; f_equal; lia.
Qed.

(* ---------- scale_up, scale_down ---------- *)
Lemma r_scale_up_spec r k r' : 0 < k -> is_int k -> r_scale_up r k = Ok r' ->
  (rect_ok r <-> rect_ok r') /\
  forall touch q, in_rectq touch r' q <-> in_rectq touch r (fst q / inject_Z k, snd q / inject_Z k)%Q.
Proof.
  intros K I H. cbv delta [r_convolve_pt r_deconvolve_pt r_convolve r_deconvolve r_reflected_convolve r_scale_up] in H; apply r_both_inv in H as [H L]; cbv beta in H, L. rewrite wrap32_id in H, L by exact I.
  apply scale_up_spec in H as [H1 H2]; [|exact K]. apply scale_up_spec in L as [L1 L2]; [|exact K].
  split; [rewrite !rect_ok_ivls; tauto|]. intros touch q. unfold in_rectq; cbn [fst snd]. rewrite H2, L2. reflexivity.
Qed.
Lemma r_scale_inverse r k r' : rect_int r -> 0 < k -> is_int k -> r_scale_up r k = Ok r' -> r_scale_down r' k = Ok r.
Proof.
  intros I K J H. apply rect_int_ivls in I as [I1 I2]. cbv delta [r_convolve_pt r_deconvolve_pt r_convolve r_deconvolve r_reflected_convolve r_scale_up] in H; apply r_both_inv in H as [H L]; cbv beta in H, L.
  unfold r_scale_down. rewrite (r_both_ok _ _ _ (horizontal r) (vertical r)); [rewrite rect_eta; reflexivity|..];
  rewrite wrap32_id in * by exact J; apply scale_roundtrip; assumption.
Qed.

(* ---------- transform ---------- *)
Lemma make_map a b l h s t touch q : (inject_Z a == s * inject_Z l + t)%Q -> (inject_Z b == s * inject_Z h + t)%Q -> ~ (s == 0)%Q -> l <= h ->
  (in_ivl touch (ivl_make a b) (s * q + t) <-> in_ivl touch (mk_ivl l h) q).
Proof.
  intros A B S L. rewrite Zle_Qle in L.
  assert (D : (s < 0)%Q \/ (0 < s)%Q) by (destruct (Qlt_le_dec s 0); [left; assumption|destruct (Qlt_le_dec 0 s); [right; assumption|exfalso; apply S; lra]]).
  unfold ivl_make. destruct (a >? b) eqn:E.
  - assert (E' : b < a) by lia. rewrite Zlt_Qlt in E'. unfold in_ivl; cbn [lo hi]. rewrite A, B in *.
    assert (SN : (s < 0)%Q) by (destruct D as [D|D]; [exact D|exfalso; nra]).
    destruct touch; rewrite A, B; split; intros [H K]; split; nra.
  - assert (E' : a <= b) by lia. rewrite Zle_Qle in E'. unfold in_ivl; cbn [lo hi].
    destruct D as [D|D].
    + assert (LH : (inject_Z l == inject_Z h)%Q) by nra.
      destruct touch; rewrite A, B; split; intros [H K]; split; nra.
    + destruct touch; rewrite A, B; split; intros [H K]; split; nra.
Qed.
Definition agrees (f : Z * Z -> outcome (Z * Z)) (m : amap) : Prop :=
  forall p p', f p = Ok p' -> same_pt (inject_Z (fst p'), inject_Z (snd p')) (amap_at m (inject_Z (fst p), inject_Z (snd p))).
Lemma r_transform_spec f m r r' : rect_ok r -> amap_ok m -> agrees f m -> r_transform f r = Ok r' ->
  rect_ok r' /\ forall touch q, in_rectq touch r' (amap_at m q) <-> in_rectq touch r q.
Proof.
  intros A [MX MY] G H. unfold r_transform, pt_map in H. cbn [px py] in H.
  apply obind_inv in H as [p1 [H1 H]]. apply obind_inv in H1 as [[x1 y1] [F1 H1]]. injection H1 as <-.
  apply obind_inv in H as [p2 [H2 H]]. apply obind_inv in H2 as [[x2 y2] [F2 H2]]. injection H2 as <-. injection H as <-.
  apply G in F1. apply G in F2. unfold same_pt, amap_at in F1, F2; cbn [fst snd] in F1, F2.
  split; [apply r_set_points_spec|]. intros touch q. unfold r_set_points, in_rectq. rewrite horizontal_of, vertical_of. cbn [px py].
  unfold amap_at. destruct A as [A1 A2]. destruct (a_swap m); cbn [fst snd] in *; destruct F1 as [F1 F1'], F2 as [F2 F2'].
  - rewrite (make_map x1 x2 (yl r) (yh r)), (make_map y1 y2 (xl r) (xh r)) by assumption. fold (horizontal r) (vertical r). tauto.
  - destruct q as [q1 q2]; cbn [fst snd]. rewrite (make_map x1 x2 (xl r) (xh r)), (make_map y1 y2 (yl r) (yh r)) by assumption. reflexivity.
Qed.
(* a transformation object of transform.hpp *)
Definition tr_amap (t : tr) : amap :=
  let sx := if bitset (tr_atr t) 1 then -1 else 1 in
  let sy := if bitset (tr_atr t) 2 then -1 else 1 in
  let x := fst (tr_p t) in let y := snd (tr_p t) in
  if bitset (tr_atr t) 4 then mk_amap true (inject_Z sy) (inject_Z sx) (inject_Z (- sy * y)) (inject_Z (- sx * x))
  else mk_amap false (inject_Z sx) (inject_Z sy) (inject_Z (- sx * x)) (inject_Z (- sy * y)).
Lemma tr_amap_ok t : amap_ok (tr_amap t).
Proof. unfold tr_amap, amap_ok. destruct (bitset (tr_atr t) 4), (bitset (tr_atr t) 1), (bitset (tr_atr t) 2); cbn [a_sx a_sy]; split; intros H; vm_compute in H; discriminate. Qed.
Lemma tr_agrees t f : (forall p p', f p = Ok p' -> p' = tr_transform t p) -> agrees f (tr_amap t).
Proof.
  intros G p p' H. apply G in H as ->. destruct p as [x y], t as [atr [u v]]. unfold tr_transform, atr_transform, tr_amap; cbn [tr_atr tr_p fst snd].
  unfold same_pt, amap_at.
  destruct (bitset atr 4), (bitset atr 1), (bitset atr 2); cbn [zb Z.eqb negb predicated_swap fst snd a_swap a_sx a_sy a_tx a_ty];
    change (- (Z.shiftl 1 1 - 1)) with (-1); change (- (Z.shiftl 0 1 - 1)) with 1;
    rewrite <- !inject_Z_mult, <- !inject_Z_plus, !injZ_eq; lia.
Qed.
(* scale() of a rectangle uses one corner twice *)
Lemma r_scale_refuted : exists (f : Z * Z -> outcome (Z * Z)) m r r',
  rect_ok r /\ pos_area r /\ amap_ok m /\ agrees f m /\ r_scale f r = Ok r' /\
  ~ forall q, in_rectq true r' (amap_at m q) <-> in_rectq true r q.
Proof.
  exists (fun p => Ok (2 * fst p, 2 * snd p)), (mk_amap false 2 2 0 0), (mk_rect 1 3 1 3), (mk_rect 2 2 2 2).
  split; [unfold rect_ok; cbn [xl xh yl yh]; lia|]. split; [unfold pos_area; cbn [xl xh yl yh]; lia|].
  split; [split; discriminate|]. split.
  - intros p p' H. assert (H' : p' = (2 * fst p, 2 * snd p)) by congruence. rewrite H'. unfold same_pt, amap_at. cbn [fst snd a_swap a_sx a_sy a_tx a_ty]. rewrite !inject_Z_mult. change (inject_Z 2) with 2%Q. split; ring.
  - split; [reflexivity|]. intros H. specialize (H (3, 3)%Q). destruct H as [_ H].
    assert (P : in_rectq true (mk_rect 1 3 1 3) (3, 3)%Q) by (unfold in_rectq, in_ivl, horizontal, vertical; cbn [lo hi xl xh yl yh fst snd]; change (inject_Z 1) with 1%Q; change (inject_Z 3) with 3%Q; lra).
    apply H in P. destruct P as [[_ P] _]. vm_compute in P. apply P. reflexivity.
Qed.
