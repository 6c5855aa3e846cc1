(* Proofs about isotropy.hpp and transform.hpp. *)
From Verif Require Import Base IsoSpec IsoModel.

Lemma dir_code_range d : 0 <= dir_code d < 4.
Proof. destruct d; cbv; split; congruence. Qed.
Lemma dir_code_inj d e : dir_code d = dir_code e -> d = e.
Proof. destruct d, e; cbv; congruence. Qed.
Lemma dir_code_onto c : 0 <= c < 4 -> exists d, dir_code d = c.
Proof.
  intros H. assert (Hc : c = 0 \/ c = 1 \/ c = 2 \/ c = 3) by lia.
  destruct Hc as [-> | [-> | [-> | ->]]];
    [exists West | exists East | exists South | exists North]; reflexivity.
Qed.

Lemma backward_spec d : exists e, d2_backward (dir_code d) = dir_code e /\ unit_vec e = vneg (unit_vec d).
Proof. destruct d; [exists East|exists West|exists North|exists South]; split; reflexivity. Qed.
Lemma left_spec d : exists e, d2_left (dir_code d) = dir_code e /\ unit_vec e = rot_ccw (unit_vec d).
Proof. destruct d; [exists South|exists North|exists East|exists West]; split; reflexivity. Qed.
Lemma right_spec d : exists e, d2_right (dir_code d) = dir_code e /\ unit_vec e = rot_cw (unit_vec d).
Proof. destruct d; [exists North|exists South|exists West|exists East]; split; reflexivity. Qed.
Lemma sign_spec d : d2_get_sign (dir_code d) = fst (unit_vec d) + snd (unit_vec d) /\
  d2_is_positive (dir_code d) = positive d /\ d2_is_negative (dir_code d) = negb (positive d).
Proof. destruct d; repeat split; reflexivity. Qed.
Lemma orient_spec d : o2_of_d2 (dir_code d) = if horizontal d then HORIZONTAL else VERTICAL.
Proof. destruct d; reflexivity. Qed.
Lemma orient_dir_roundtrip d :
  o2_get_direction (o2_of_d2 (dir_code d)) (d1_of_d2 (dir_code d)) = dir_code d.
Proof. destruct d; reflexivity. Qed.
Lemma get_direction_spec o s : (o = 0 \/ o = 1) -> (s = 0 \/ s = 1) ->
  exists d, o2_get_direction o s = dir_code d /\
    horizontal d = (o =? HORIZONTAL) /\ positive d = (s =? HIGH).
Proof.
  intros [-> | ->] [-> | ->];
    [exists West|exists East|exists South|exists North]; repeat split; reflexivity.
Qed.
Lemma d1_spec s : (s = LOW \/ s = HIGH) ->
  d1_backward s = 1 - s /\ d1_get_sign s = (if s =? HIGH then 1 else -1).
Proof. intros [-> | ->]; split; reflexivity. Qed.
Lemma perp_spec o : (o = 0 \/ o = 1) -> o2_get_perpendicular o = 1 - o.
Proof. intros [-> | ->]; reflexivity. Qed.
(* three axes *)
Lemma d3_spec c : 0 <= c < 6 ->
  0 <= d3_backward c < 6 /\ d3_backward (d3_backward c) = c /\ d3_backward c <> c /\
  o3_of_d3 (d3_backward c) = o3_of_d3 c /\ d3_get_sign (d3_backward c) = - d3_get_sign c /\
  o3_get_direction (o3_of_d3 c) (Z.land c 1) = c.
Proof.
  intros H. assert (Hc : c = 0 \/ c = 1 \/ c = 2 \/ c = 3 \/ c = 4 \/ c = 5) by lia.
  destruct Hc as [-> | [-> | [-> | [-> | [-> | ->]]]]]; cbv; intuition congruence.
Qed.

(* ---------- axis transformations ---------- *)
Lemma atr_cases a : 0 <= a < 8 ->
  a = 0 \/ a = 1 \/ a = 2 \/ a = 3 \/ a = 4 \/ a = 5 \/ a = 6 \/ a = 7.
Proof. lia. Qed.

Ltac atr_case H :=
  apply atr_cases in H; destruct H as [-> | [-> | [-> | [-> | [-> | [-> | [-> | ->]]]]]]].

Lemma atr_transform_spec a x y : 0 <= a < 8 ->
  atr_transform a (x, y) = combine_dirs (fst (atr_dirs a)) (snd (atr_dirs a)) x y.
Proof.
  intros H. unfold atr_transform, combine_dirs. cbn [fst snd].
  atr_case H;
    (repeat match goal with |- context [bitset ?a ?m] =>
       let v := eval vm_compute in (bitset a m) in change (bitset a m) with v end);
    cbn [zb atr_dirs unit_vec fst snd];
    change (Z.shiftl 1 1) with 2; change (Z.shiftl 0 1) with 0;
    unfold predicated_swap; cbn [Z.eqb negb]; f_equal; lia.
Qed.
Lemma get_directions_spec a : 0 <= a < 8 ->
  get_directions a = (dir_code (fst (atr_dirs a)), dir_code (snd (atr_dirs a))).
Proof. intros H. atr_case H; reflexivity. Qed.
Lemma set_get_directions a : 0 <= a < 8 ->
  set_directions (fst (get_directions a)) (snd (get_directions a)) = a.
Proof. intros H. atr_case H; reflexivity. Qed.
Lemma get_set_directions h v : horizontal h <> horizontal v ->
  0 <= set_directions (dir_code h) (dir_code v) < 8 /\
  get_directions (set_directions (dir_code h) (dir_code v)) = (dir_code h, dir_code v).
Proof. destruct h, v; cbn; intros H; try congruence; repeat split; try reflexivity; cbv; congruence. Qed.

Lemma atr_plus_range a b : 0 <= a < 8 -> 0 <= b < 8 -> exists c, atr_plus a b = Some c /\ 0 <= c < 8.
Proof.
  intros Ha Hb. atr_case Ha; atr_case Hb; cbv [atr_plus];
    (eexists; split; [vm_compute; reflexivity | lia]).
Qed.
Lemma atr_table a x y : 0 <= a < 8 ->
  atr_transform a (x, y) =
  match a with
  | 0 => (x, y) | 1 => (- x, y) | 2 => (x, - y) | 3 => (- x, - y)
  | 4 => (y, x) | 5 => (y, - x) | 6 => (- y, x) | _ => (- y, - x)
  end.
Proof.
  intros H. rewrite atr_transform_spec by assumption. atr_case H; cbn [atr_dirs];
    unfold combine_dirs; cbn [unit_vec fst snd]; f_equal; lia.
Qed.
Lemma atr_plus_spec a b c x y : 0 <= a < 8 -> 0 <= b < 8 -> atr_plus a b = Some c ->
  atr_transform c (x, y) = atr_transform b (atr_transform a (x, y)).
Proof.
  intros Ha Hb Hc.
  destruct (atr_plus_range a b Ha Hb) as [c' [Hc' Rc]]. rewrite Hc in Hc'. injection Hc' as <-.
  rewrite (atr_table c x y Rc), (atr_table a x y Ha).
  atr_case Ha; rewrite (atr_table b _ _ Hb); atr_case Hb; cbv [atr_plus] in Hc;
    (match type of Hc with ?l = _ => let v := eval vm_compute in l in change l with v in Hc end;
     injection Hc as <-; cbv match; f_equal; lia).
Qed.
Lemma atr_invert_range a : 0 <= a < 8 -> 0 <= atr_invert a < 8.
Proof. intros H. atr_case H; vm_compute; split; congruence. Qed.
Lemma atr_invert_spec a p : 0 <= a < 8 ->
  atr_transform (atr_invert a) (atr_transform a p) = p /\
  atr_transform a (atr_transform (atr_invert a) p) = p.
Proof.
  intros Ha. destruct p as [x y].
  pose proof (atr_invert_range a Ha) as Hi.
  rewrite (atr_table a x y Ha), (atr_table _ x y Hi).
  atr_case Ha;
    (match goal with |- context [atr_invert ?k] =>
       let v := eval vm_compute in (atr_invert k) in change (atr_invert k) with v in * end);
    cbv match; rewrite !atr_table by lia; cbv match; split; f_equal; lia.
Qed.
Lemma atr_eq_of_maps a b : 0 <= a < 8 -> 0 <= b < 8 ->
  (forall p, atr_transform a p = atr_transform b p) -> a = b.
Proof.
  intros Ha Hb H. specialize (H (1, 2)). rewrite !atr_table in H by assumption.
  atr_case Ha; atr_case Hb; try reflexivity; discriminate H.
Qed.
Lemma axis_array_roundtrip a : 0 <= a < 8 -> write_back_axis_array (populate_axis_array a) = a.
Proof. intros H. atr_case H; reflexivity. Qed.

(* combine_axis_arrays does not agree with += *)
Lemma combine_axis_arrays_wrong :
  exists a b arr c, 0 <= a < 8 /\ 0 <= b < 8 /\
    combine_axis_arrays (populate_axis_array a) (populate_axis_array b) = Some arr /\
    atr_plus a b = Some c /\ write_back_axis_array arr <> c.
Proof. exists 1, 1, (1, 2), 0. repeat split; try lia; vm_compute; congruence. Qed.

(* ---------- transformation ---------- *)
Definition tr_ok (t : tr) : Prop := 0 <= tr_atr t < 8.
Lemma tr_invert_ok t : tr_ok t -> tr_ok (tr_invert t).
Proof. unfold tr_ok, tr_invert. cbn [tr_atr]. apply atr_invert_range. Qed.
Lemma atr_transform_linear a x y u v : 0 <= a < 8 ->
  atr_transform a (x + u, y + v) =
  (fst (atr_transform a (x, y)) + fst (atr_transform a (u, v)),
   snd (atr_transform a (x, y)) + snd (atr_transform a (u, v))).
Proof. intros H. rewrite !atr_table by assumption. atr_case H; cbn [fst snd]; f_equal; lia. Qed.
Lemma tr_invert_spec t p : tr_ok t ->
  tr_transform (tr_invert t) (tr_transform t p) = p /\
  tr_transform t (tr_transform (tr_invert t) p) = p.
Proof.
  destruct t as [a [px py]], p as [x y]. unfold tr_ok. cbn [tr_atr]. intros Ha.
  unfold tr_invert, tr_transform. cbn [tr_atr tr_p fst snd].
  rewrite !(atr_table a) by assumption. pose proof (atr_invert_range a Ha) as Hi.
  atr_case Ha;
    (match goal with |- context [atr_invert ?k] =>
       let v := eval vm_compute in (atr_invert k) in change (atr_invert k) with v in * end);
    cbn [fst snd]; rewrite !atr_table by lia; cbn [fst snd]; split; f_equal; lia.
Qed.

(* whatever the uninitialised variables hold, the translation of the second
   operand has no influence on the result of += *)
Lemma tr_plus_ignores_translation g t u u' : tr_atr u = tr_atr u' ->
  tr_plus_garbage g t u = tr_plus_garbage g t u'.
Proof. intros H. unfold tr_plus_garbage. rewrite H. reflexivity. Qed.

Lemma tr_plus_wrong g : exists t u r p, tr_ok t /\ tr_ok u /\ tr_plus_garbage g t u = Some r /\
  tr_transform r p <> tr_transform u (tr_transform t p).
Proof.
  destruct g as [gx gy].
  exists (mk_tr 0 (0, 0)).
  destruct (Z.eq_dec gx 0) as [-> | Hg].
  - exists (mk_tr 0 (1, 0)), (mk_tr 0 (0, gy)), (0, 0).
    repeat split; unfold tr_ok; cbn [tr_atr]; try lia.
    + unfold tr_plus_garbage, tr_transform, tr_invert. cbn [tr_atr tr_p fst snd].
      rewrite !(atr_table 0) by lia. cbn [fst snd].
      replace (atr_invert 0) with 0 by reflexivity. rewrite ?(atr_table 0) by lia.
      cbn [fst snd]. change (atr_plus 0 0) with (Some 0); cbn [bind]; f_equal; f_equal; f_equal; lia.
    + unfold tr_transform. cbn [tr_atr tr_p fst snd]. rewrite !(atr_table 0) by lia.
      cbn [fst snd]. intros E. injection E. lia.
  - exists (mk_tr 0 (0, 0)), (mk_tr 0 (gx, gy)), (0, 0).
    repeat split; unfold tr_ok; cbn [tr_atr]; try lia.
    + unfold tr_plus_garbage, tr_transform, tr_invert. cbn [tr_atr tr_p fst snd].
      rewrite !(atr_table 0) by lia. cbn [fst snd].
      replace (atr_invert 0) with 0 by reflexivity. rewrite ?(atr_table 0) by lia.
      cbn [fst snd]. change (atr_plus 0 0) with (Some 0); cbn [bind]; f_equal; f_equal; f_equal; lia.
    + unfold tr_transform. cbn [tr_atr tr_p fst snd]. rewrite !(atr_table 0) by lia.
      cbn [fst snd]. intros E. injection E. lia.
Qed.

Lemma asf_scale_wrong : exists s p, asf_scale s p <> (fst p * fst s, snd p * snd s).
Proof. exists (1, 2), (0, 1). vm_compute. congruence. Qed.
Lemma asf_scale_isotropic f p : asf_scale (f, f) p = (fst p * f, snd p * f).
Proof. reflexivity. Qed.
Lemma asf_transform_spec s a x y : 0 <= a < 8 ->
  (* scaling by s and then transforming = transforming and then scaling by the
     transformed factors *)
  atr_transform a (x * fst s, y * snd s) =
  (fst (atr_transform a (x, y)) * fst (asf_transform s a),
   snd (atr_transform a (x, y)) * snd (asf_transform s a)).
Proof.
  intros H. destruct s as [sx sy]. rewrite !(atr_table a) by assumption.
  atr_case H; cbn [fst snd];
    match goal with |- context [asf_transform ?s ?k] =>
      let v := eval cbn in (asf_transform s k) in change (asf_transform s k) with v end;
    cbn [fst snd]; f_equal; lia.
Qed.
