(* Doubling, the squares around crossings beside the grid, and halving. *)
From Coq Require Import Reals Lra Sorting.Sorted Permutation.
From Verif Require Import Base Units Scan90Spec Poly90Spec Poly90Model GeoSpec PolySpec Set90Spec ArbSpec ArbSums ArbOrder Ins45Spec Ins45Model Ins45Proofs Ins45Cor Scan45Model Scan45Base Bool45Spec Bool45Model Bool45Proofs Bool45Insert Snap45Spec Snap45Proofs Adapt45Spec Adapt45Model Adapt45Eq Retry45Spec Retry45Model.
From Coq Require Import Lra.
Local Open Scope Z_scope.

Definition even_vertex (v : v45) : Prop := even_point (v_pt v).
Lemma even_ex z : Z.even z = true -> exists k, z = 2 * k.
Proof. intros H. apply Z.even_spec in H. exact H. Qed.
Lemma odd_ex z : Z.odd z = true -> exists k, z = 2 * k + 1.
Proof. intros H. apply Z.odd_spec in H. exact H. Qed.

(* what a function of sets with even vertices cannot do *)
Definition sx (X : Z) : R := (IZR X + / 4)%R.
Definition sy (m : Z) : R := (IZR m / 8)%R.
Definition quiet (f : R -> R -> Z) : Prop :=
  (forall X r b, -1 <= r <= 1 -> Z.odd b = true -> f (sx X) (sy (8 * (r * X + b) + 2 * r + 1)) = f (sx X) (sy (8 * (r * X + b) + 2 * r - 1))) /\
  forall X b d, Z.odd X = true -> Z.even b = true -> d = 1 \/ d = -1 -> f (sx X) (sy (8 * b + d)) = f (sx (X - 1)) (sy (8 * b + d)).
Lemma quiet_depth l : Forall even_vertex l -> quiet (depth45 l).
Proof.
  intros E. rewrite Forall_forall in E. split.
  - intros X r b Hr Hb. pose proof (jump l X r b Hr) as J. unfold sx, sy. assert (L : left_on X r b l = 0); [|lia].
    unfold left_on. rewrite (tot_same _ (fun _ => 0)); [clear; induction l; cbn [tot]; lia|]. intros v V. destruct (E v V) as [E1 E2]. apply even_ex in E1 as [i E1], E2 as [j E2]. apply odd_ex in Hb as [k ->]. rewrite E1, E2.
    replace (2 * j =? r * (2 * i) + (2 * k + 1)) with false; [rewrite andb_false_r; reflexivity|]. symmetry. apply Z.eqb_neq. assert (r = -1 \/ r = 0 \/ r = 1) as [-> | [-> | ->]] by lia; lia.
  - intros X b d HX Hb Hd. unfold depth45. apply tot_same. intros v V. destruct (E v V) as [E1 E2]. apply even_ex in E1 as [i E1], E2 as [j E2]. apply odd_ex in HX as [k ->]. apply even_ex in Hb as [m ->]. unfold v45_depth, sx. rewrite !rleb_4, E1.
    replace (2 * i <=? 2 * k + 1 - 1) with (2 * i <=? 2 * k + 1) by lia. destruct (_ <=? _); [|reflexivity]. unfold line_below. rewrite E1, E2.
    assert (S : forall r, r = -1 \/ r = 0 \/ r = 1 -> rltb (IZR (2 * j) + IZR r * (IZR (2 * k + 1) + / 4 - IZR (2 * i))) (sy (8 * (2 * m) + d)) = rltb (IZR (2 * j) + IZR r * (IZR (2 * k + 1 - 1) + / 4 - IZR (2 * i))) (sy (8 * (2 * m) + d))).
    { intros r Hr.
      assert (C : forall u, (IZR (2 * j) + IZR r * (IZR u + / 4 - IZR (2 * i)))%R = (IZR (8 * (2 * j) + r * (8 * u + 2 - 8 * (2 * i))) / 8)%R) by (intros u; rewrite plus_IZR, !mult_IZR, minus_IZR, plus_IZR, !mult_IZR; field).
      rewrite (rltb_8 _ (8 * (2 * m) + d) _ (sy (8 * (2 * m) + d)) (C (2 * k + 1)) eq_refl). rewrite (rltb_8 _ (8 * (2 * m) + d) _ (sy (8 * (2 * m) + d)) (C (2 * k + 1 - 1)) eq_refl).
      destruct Hr as [-> | [-> | ->]]; apply ArbSums.bool_eq; rewrite !Z.ltb_lt; lia. }
    pose proof (S (-1) ltac:(lia)) as S1. pose proof (S 0 ltac:(lia)) as S2. pose proof (S 1 ltac:(lia)) as S3. rewrite S1, S2, S3. reflexivity.
Qed.
Lemma quiet_op (F : Z -> Z -> Z) f g h : (forall x y, h x y = F (f x y) (g x y)) -> quiet f -> quiet g -> quiet h.
Proof.
  intros E [A1 A2] [B1 B2]. split.
  - intros X r b Hr Hb. rewrite !E, (A1 X r b Hr Hb), (B1 X r b Hr Hb). reflexivity.
  - intros X b d HX Hb Hd. rewrite !E, (A2 X b d HX Hb Hd), (B2 X b d HX Hb Hd). reflexivity.
Qed.
Lemma quiet_counts l p r : quiet (depth45 l) -> -1 <= r <= 1 -> count_at p r l <> 0 -> if r =? 0 then even_point p else same_parity p.
Proof.
  intros [Q1 Q2] Hr H. rewrite count_at_left in H.
  assert (O : Z.odd (py p - r * px p) = false).
  { destruct (Z.odd (py p - r * px p)) eqn:O; [|reflexivity]. exfalso. apply H. rewrite <- !(jump _ _ r _ Hr). pose proof (Q1 (px p) r _ Hr O) as A. pose proof (Q1 (px p - 1) r _ Hr O) as B. unfold sx, sy in *. lia. }
  rewrite Z.odd_sub, Z.odd_mul in O.
  destruct (Z.eqb_spec r 0) as [->|N].
  - cbn [Z.odd andb] in O. rewrite xorb_false_r in O. assert (Ey : Z.even (py p) = true) by (rewrite <- Z.negb_odd, O; reflexivity). split; [|exact Ey]. destruct (Z.odd (px p)) eqn:X; [|rewrite <- Z.negb_odd, X; reflexivity]. exfalso. apply H.
    rewrite <- !(jump _ _ 0 _ Hr). replace (py p - 0 * px p) with (py p) by lia. pose proof (Q2 (px p) (py p) 1 X Ey ltac:(lia)) as A. pose proof (Q2 (px p) (py p) (-1) X Ey ltac:(lia)) as B.
    unfold sx, sy in *. replace (8 * (0 * px p + py p) + 2 * 0 + 1) with (8 * py p + 1) by lia. replace (8 * (0 * px p + py p) + 2 * 0 - 1) with (8 * py p + -1) by lia. replace (8 * (0 * (px p - 1) + py p) + 2 * 0 + 1) with (8 * py p + 1) by lia. replace (8 * (0 * (px p - 1) + py p) + 2 * 0 - 1) with (8 * py p + -1) by lia. lia.
  - unfold same_parity. rewrite <- !Z.negb_odd. assert (r = -1 \/ r = 1) as [-> | ->] by lia; cbn [Z.odd andb] in O; destruct (Z.odd (px p)), (Z.odd (py p)); cbn in *; congruence.
Qed.

(* the counts at p are settled by the plane around p *)
Definition near_pt (p : point) (x y : R) : Prop := (IZR (px p) - 1 < x < IZR (px p) + 1)%R /\ (IZR (py p) - 1 < y < IZR (py p) + 1)%R.
Lemma count_samples p r : -1 <= r <= 1 -> exists x1 x2 y1 y2 y3 y4, near_pt p x1 y1 /\ near_pt p x1 y2 /\ near_pt p x2 y3 /\ near_pt p x2 y4 /\
  forall l, count_at p r l = depth45 l x1 y1 - depth45 l x1 y2 - (depth45 l x2 y3 - depth45 l x2 y4).
Proof.
  intros Hr. set (b := py p - r * px p). exists (sx (px p)), (sx (px p - 1)), (sy (8 * (r * px p + b) + 2 * r + 1)), (sy (8 * (r * px p + b) + 2 * r - 1)), (sy (8 * (r * (px p - 1) + b) + 2 * r + 1)), (sy (8 * (r * (px p - 1) + b) + 2 * r - 1)).
  assert (N : forall X m, X = px p \/ X = px p - 1 -> 8 * py p - 8 < m < 8 * py p + 8 -> near_pt p (sx X) (sy m)).
  { intros X m HX [B1 B2]. apply IZR_lt in B1, B2. rewrite minus_IZR, mult_IZR in B1. rewrite plus_IZR, mult_IZR in B2. unfold near_pt, sx, sy. split; [|lra]. destruct HX as [-> | ->]; rewrite ?minus_IZR; lra. }
  unfold b. do 4 (split; [apply N; [lia|assert (r = -1 \/ r = 0 \/ r = 1) as [-> | [-> | ->]] by lia; lia]|]).
  intros l. rewrite count_at_left, <- !(jump _ _ r _ Hr). unfold sx, sy. lia.
Qed.
Lemma count_local p r a b : -1 <= r <= 1 -> (forall x y, near_pt p x y -> depth45 a x y = depth45 b x y) -> count_at p r a = count_at p r b.
Proof. intros Hr H. destruct (count_samples p r Hr) as [x1 [x2 [y1 [y2 [y3 [y4 [N1 [N2 [N3 [N4 C]]]]]]]]]]. rewrite !C, !H by assumption. reflexivity. Qed.
Lemma count_const p r a c : -1 <= r <= 1 -> (forall x y, near_pt p x y -> depth45 a x y = c) -> count_at p r a = 0.
Proof. intros Hr H. destruct (count_samples p r Hr) as [x1 [x2 [y1 [y2 [y3 [y4 [N1 [N2 [N3 [N4 C]]]]]]]]]]. rewrite C, !H by assumption. lia. Qed.

(* halving *)
Lemma no_counts_depth v x y : ~ has_counts v -> v45_depth v x y = 0.
Proof. intros H. unfold has_counts in H. unfold v45_depth. replace (v_down v) with 0 by lia. replace (v_flat v) with 0 by lia. replace (v_up v) with 0 by lia. repeat match goal with |- context [if ?c then _ else _] => destruct c end; reflexivity. Qed.
Lemma has_counts_dec v : has_counts v \/ ~ has_counts v.
Proof. unfold has_counts. lia. Qed.
Lemma halve_even v : even_vertex v -> scale45 2 (halve v) = v.
Proof.
  intros [E1 E2]. destruct v as [[a b] d f u w]. cbn [v_pt px py] in *. apply even_ex in E1 as [i ->], E2 as [j ->]. unfold scale45, halve. cbn [v_pt px py v_down v_flat v_up v_vert].
  replace ((2 * i + 1) / 2) with i by (apply Z.div_unique with 1; lia). replace ((2 * j + 1) / 2) with j by (apply Z.div_unique with 1; lia). f_equal. f_equal; lia.
Qed.
Lemma halve_depth l x y : Forall (fun v => has_counts v -> even_vertex v) l -> depth45 (map halve l) x y = depth45 l (2 * x) (2 * y).
Proof.
  intros F. unfold depth45. induction F as [|v l H F IH]; [reflexivity|]. cbn [map tot]. rewrite IH. f_equal. destruct (has_counts_dec v) as [C|C].
  - pose proof (scale_depth 2 [halve v] x y ltac:(lia)) as S. unfold depth45 in S. cbn [map tot] in S. rewrite (halve_even v (H C)) in S. lia.
  - rewrite !no_counts_depth; [reflexivity|exact C|exact C].
Qed.

(* rectangles *)
Definition num (bs : list rect) (x y : R) : Z := tot (fun q => if in_rect_r q x y then 1 else 0) bs.
Lemma num_nonneg bs x y : 0 <= num bs x y.
Proof. unfold num. induction bs as [|q bs IH]; cbn [tot]; [lia|]. destruct (in_rect_r q x y); lia. Qed.
Lemma num_zero bs x y : num bs x y = 0 <-> forall q, In q bs -> in_rect_r q x y = false.
Proof.
  unfold num. induction bs as [|q bs IH]; cbn [tot].
  - split; [intros _ q []|reflexivity].
  - pose proof (num_nonneg bs x y) as N. unfold num in N. split.
    + intros H p [<-|I]; destruct (in_rect_r q x y) eqn:E; try reflexivity; try lia; apply IH; [lia|exact I].
    + intros H. rewrite (H q (or_introl eq_refl)). rewrite (proj2 IH); [reflexivity|]. intros p I. apply H. right. exact I.
Qed.
Lemma boxes_depth hole bs : forall d x y, Forall rect_ok bs -> depth45 (insert_boxes hole bs d) x y = depth45 d x y + hole_sign hole * num bs x y.
Proof.
  induction bs as [|q bs IH]; intros d x y F; cbn [insert_boxes fold_left]; [unfold num; cbn [tot]; lia|]. inversion F as [|? ? R F']; subst.
  fold (insert_boxes hole bs (s_data (insert_rect45 hole q (mk_set45 d false)))). rewrite IH by exact F'. pose proof (rect45_depth hole q (mk_set45 d false) x y R) as D. unfold sdepth in D. rewrite D. cbn [s_data]. unfold num. cbn [tot]. lia.
Qed.
Lemma boxes_boundary hole bs : forall d, Forall rect_ok bs -> boundary45 d -> boundary45 (insert_boxes hole bs d).
Proof.
  induction bs as [|q bs IH]; intros d F B; cbn [insert_boxes fold_left]; [exact B|]. inversion F as [|? ? R F']; subst. apply IH; [exact F'|]. apply (rect45_bvalid hole q (mk_set45 d false) R). split; [exact B|discriminate].
Qed.
Lemma pair_pt hi a b c : v_pt (half_edge_pair hi a b c) = b.
Proof. unfold half_edge_pair. destruct (characterize a b) as [i s], (characterize b c) as [j t]. unfold add_count. repeat match goal with |- context [if ?c then _ else _] => destruct c end; reflexivity. Qed.
Definition even_rect (q : rect) : Prop := Z.even (xl q) = true /\ Z.even (xh q) = true /\ Z.even (yl q) = true /\ Z.even (yh q) = true.
Lemma boxes_forall (P : v45 -> Prop) hole bs : (forall q, In q bs -> Forall P (s_data (insert_rect45 hole q empty45))) -> forall d, Forall P d -> Forall P (insert_boxes hole bs d).
Proof.
  induction bs as [|q bs IH]; intros H d F; cbn [insert_boxes fold_left]; [exact F|]. apply IH; [intros p I; apply H; right; exact I|]. specialize (H q (or_introl eq_refl)). unfold insert_rect45 in *. cbn [s_data empty45 app] in *. apply Forall_app. split; assumption.
Qed.
Lemma rect_axis hole q : rect_ok q -> Forall axis_vertex (s_data (insert_rect45 hole q empty45)).
Proof. intros R. apply (rect45_bvalid hole q empty45 R bvalid_empty). reflexivity. Qed.
Lemma rect_even hole q : even_rect q -> Forall even_vertex (s_data (insert_rect45 hole q empty45)).
Proof. intros [E1 [E2 [E3 E4]]]. unfold insert_rect45. cbn [s_data empty45 app]. repeat (apply Forall_cons || apply Forall_nil); unfold even_vertex, even_point; rewrite pair_pt; cbn [px py]; split; assumption. Qed.
Lemma box_ok p : rect_ok (box p).
Proof. unfold rect_ok, box. cbn [xl xh yl yh]. lia. Qed.
Lemma box_even p : odd_point p -> even_rect (box p).
Proof. intros [A B]. unfold even_rect, box. cbn [xl xh yl yh]. rewrite !Z.even_sub, !Z.even_add, <- !Z.negb_odd, A, B. repeat split; reflexivity. Qed.
Lemma box_near p q x y : odd_point p -> odd_point q -> near_pt p x y -> in_rect_r (box q) x y = true <-> q = p.
Proof.
  intros [A1 A2] [B1 B2] [[X1 X2] [Y1 Y2]]. unfold in_rect_r, box. cbn [xl xh yl yh]. rewrite !andb_true_iff, !rleb_iff, !rltb_iff, !minus_IZR, !plus_IZR. split.
  - intros [[[C1 C2] C3] C4]. apply odd_ex in A1 as [a A1], A2 as [b A2], B1 as [c B1], B2 as [d B2]. destruct p as [p1 p2], q as [q1 q2]. cbn [px py] in *.
    assert (q1 - 1 < p1 + 1) by (apply lt_IZR; rewrite minus_IZR, plus_IZR; lra). assert (p1 - 1 < q1 + 1) by (apply lt_IZR; rewrite minus_IZR, plus_IZR; lra). assert (q2 - 1 < p2 + 1) by (apply lt_IZR; rewrite minus_IZR, plus_IZR; lra). assert (p2 - 1 < q2 + 1) by (apply lt_IZR; rewrite minus_IZR, plus_IZR; lra). f_equal; lia.
  - intros ->. lra.
Qed.
Definition is_box (q : rect) : Prop := exists p, odd_point p /\ q = box p.
Lemma num_near p bs x y : odd_point p -> Forall is_box bs -> near_pt p x y -> if in_dec (fun a b : rect => ltac:(decide equality; apply Z.eq_dec) : {a = b} + {a <> b}) (box p) bs then 0 < num bs x y else num bs x y = 0.
Proof.
  intros O F N. rewrite Forall_forall in F. destruct (in_dec _ _ _) as [I|I].
  - pose proof (num_nonneg bs x y). assert (num bs x y <> 0); [|lia]. rewrite num_zero. intros H0. specialize (H0 _ I). rewrite (proj2 (box_near p p x y O O N) eq_refl) in H0. discriminate.
  - apply num_zero. intros q Q. destruct (F q Q) as [p' [O' ->]]. apply not_true_iff_false. rewrite (box_near p p' x y O O' N). intros ->. exact (I Q).
Qed.
Lemma box_list bs : Forall is_box bs -> Forall rect_ok bs /\ Forall even_rect bs.
Proof. intros F. split; apply Forall_forall; intros q I; rewrite Forall_forall in F; destruct (F q I) as [p [O ->]]; [apply box_ok|apply box_even, O]. Qed.

(* the squares *)
Definition side (left : bool) (c : point * point * point) : bool := Bool.eqb (turns_left c) left && beside_grid c.
Lemma area_left p1 p2 p3 : (area3 p1 p2 p3 <? 0) = turns_left (p1, p2, p3).
Proof.
  unfold area3, turns_left, pt_eqb. destruct p1 as [a b], p2 as [c d], p3 as [e f]. cbn [px py].
  set (X := (if a =? c then 0 else _)). assert (EX : X = (c - a) * (d - b)) by (unfold X; destruct (Z.eqb_spec a c) as [->|]; ring). rewrite EX. clear X EX.
  set (Y := (if c =? e then 0 else _)). assert (EY : Y = (e - c) * (f - b + (d - b))) by (unfold Y; destruct (Z.eqb_spec c e) as [->|]; ring). rewrite EY. clear Y EY.
  set (Z0 := (if _ && _ then 0 else _)). assert (EZ : Z0 = (a - e) * (f - b)) by (unfold Z0; destruct (Z.eqb_spec a e) as [->|], (Z.eqb_spec b f) as [->|]; cbn [andb]; ring). rewrite EZ. clear Z0 EZ.
  apply ArbSums.bool_eq. rewrite !Z.ltb_lt. replace ((c - a) * (d - b) + (e - c) * (f - b + (d - b)) + (a - e) * (f - b)) with (- ((c - a) * (f - b) - (d - b) * (e - a))) by ring. lia.
Qed.
Lemma abs_odd x : negb (Z.rem (Z.abs x) 2 =? 0) = Z.odd x.
Proof.
  rewrite Z.rem_mod_nonneg by lia. rewrite Zmod_odd. replace (Z.odd (Z.abs x)) with (Z.odd x) by (destruct (Z.abs_eq_or_opp x) as [-> | ->]; rewrite ?Z.odd_opp; reflexivity). destruct (Z.odd x); reflexivity.
Qed.
Definition split_boxes (cs : list (point * point * point)) : list rect * list rect :=
  (map (fun c => box (middle c)) (filter (side false) cs), map (fun c => box (middle c)) (filter (side true) cs)).
Lemma split_app a b : split_boxes (a ++ b) = both_app (split_boxes a) (split_boxes b).
Proof. unfold split_boxes, both_app. cbn [fst snd]. rewrite !filter_app, !map_app. reflexivity. Qed.
Lemma corner_split p1 p2 p3 : corner_rects p1 p2 p3 = split_boxes [(p1, p2, p3)].
Proof.
  unfold corner_rects, split_boxes, side. cbn [filter]. rewrite abs_odd, area_left. change (beside_grid (p1, p2, p3)) with (Z.odd (px p2)). destruct (Z.odd (px p2)), (turns_left (p1, p2, p3)); reflexivity.
Qed.
Lemma loop_split p0 p1 z m : forall u v, shell_loop p0 p1 u v (m ++ [z]) = split_boxes (triples (u :: v :: m ++ [p0; p1])).
Proof.
  induction m as [|w m IH]; intros u v.
  - cbn [app shell_loop]. rewrite !corner_split, <- split_app. reflexivity.
  - cbn [app]. change (triples (u :: v :: w :: m ++ [p0; p1])) with ([(u, v, w)] ++ triples (v :: w :: m ++ [p0; p1])). rewrite split_app, <- corner_split, <- IH. destruct m; reflexivity.
Qed.
Lemma removelast_last {A} (m : list A) z : removelast (m ++ [z]) = m.
Proof. apply removelast_last. Qed.
Lemma shell_split l : closed_ring l -> error_shell l = split_boxes (corners_of l).
Proof.
  intros [p0 [p1 [m ->]]]. unfold corners_of, ring_corners. rewrite removelast_last, <- (loop_split p0 p1 p0). destruct m; reflexivity.
Qed.
Lemma rects_split rings : Forall closed_ring rings -> error_rects rings = split_boxes (flat_map corners_of rings).
Proof. induction 1 as [|l rings C F IH]; [reflexivity|]. cbn [error_rects fold_right flat_map]. fold (error_rects rings). rewrite IH, (shell_split l C), split_app. reflexivity. Qed.
Lemma rects_ok rings : Forall rect_ok (fst (error_rects rings)) /\ Forall rect_ok (snd (error_rects rings)).
Proof.
  assert (B : forall a b, Forall rect_ok (fst a) /\ Forall rect_ok (snd a) -> Forall rect_ok (fst b) /\ Forall rect_ok (snd b) -> Forall rect_ok (fst (both_app a b)) /\ Forall rect_ok (snd (both_app a b))) by (intros a b [A1 A2] [B1 B2]; unfold both_app; cbn [fst snd]; split; apply Forall_app; split; assumption).
  assert (C : forall p1 p2 p3, Forall rect_ok (fst (corner_rects p1 p2 p3)) /\ Forall rect_ok (snd (corner_rects p1 p2 p3))).
  { intros p1 p2 p3. rewrite corner_split. unfold split_boxes. cbn [fst snd]. split; apply Forall_forall; intros q I; apply in_map_iff in I as [c [<- _]]; apply box_ok. }
  assert (L : forall f s l u v, Forall rect_ok (fst (shell_loop f s u v l)) /\ Forall rect_ok (snd (shell_loop f s u v l))).
  { intros f s. induction l as [|w l IH]; intros u v; [split; constructor|]. destruct l as [|w' l]; cbn [shell_loop]; [apply B; apply C|]. apply B; [apply C|apply IH]. }
  induction rings as [|l rings IH]; [split; constructor|]. cbn [error_rects fold_right]. apply B; [|exact IH]. destruct l as [|p0 [|p1 [|p2 l]]]; try (split; constructor). apply L.
Qed.
Lemma box_unique p q x y : odd_point p -> odd_point q -> in_rect_r (box p) x y = true -> in_rect_r (box q) x y = true -> p = q.
Proof.
  intros [A1 A2] [B1 B2]. unfold in_rect_r, box. cbn [xl xh yl yh]. rewrite !andb_true_iff, !rleb_iff, !rltb_iff. intros [[[C1 C2] C3] C4] [[[D1 D2] D3] D4]. apply odd_ex in A1 as [a A1], A2 as [b A2], B1 as [c B1], B2 as [d B2]. destruct p as [p1 p2], q as [q1 q2]. cbn [px py] in *.
  assert (q1 - 1 < p1 + 1) by (apply lt_IZR; lra). assert (p1 - 1 < q1 + 1) by (apply lt_IZR; lra). assert (q2 - 1 < p2 + 1) by (apply lt_IZR; lra). assert (p2 - 1 < q2 + 1) by (apply lt_IZR; lra). f_equal; lia.
Qed.

(* vertices with counts *)
Lemma slope_of v : has_counts v -> exists r, -1 <= r <= 1 /\ slope_count v r <> 0.
Proof. intros [H|[H|H]]; [exists (-1)|exists 0|exists 1]; unfold slope_count; cbn [Z.eqb Pos.eqb]; lia. Qed.
Lemma scale_evenv l : Forall even_vertex (map (scale45 2) l).
Proof. apply Forall_forall. intros v I. apply in_map_iff in I as [u [<- _]]. unfold even_vertex, even_point, scale45. cbn [v_pt px py]. rewrite !Z.even_mul. cbn [Z.even]. rewrite !orb_true_r. split; reflexivity. Qed.
Lemma strict_quiet_diag l : strictly_in_order l -> quiet (depth45 l) -> even_diagonals l.
Proof.
  intros S Q. unfold even_diagonals. apply Forall_forall. intros v V [N|N].
  - apply (quiet_counts l (v_pt v) (-1) Q ltac:(lia)). rewrite (strict_count l v (-1) S V). exact N.
  - apply (quiet_counts l (v_pt v) 1 Q ltac:(lia)). rewrite (strict_count l v 1 S V). exact N.
Qed.
Lemma strict_quiet_axis l : strictly_in_order l -> quiet (depth45 l) -> rectilinear45 l -> Forall (fun v => has_counts v -> even_vertex v) l.
Proof.
  intros S Q A. unfold rectilinear45 in A. rewrite Forall_forall in *. intros v V H. destruct (A v V) as [A1 A2]. apply (quiet_counts l (v_pt v) 0 Q ltac:(lia)). rewrite (strict_count l v 0 S V). unfold has_counts in H. unfold slope_count. cbn [Z.eqb]. lia.
Qed.
(* the set with the squares: no odd vertices are left *)
Lemma even_left r pos neg r2 : strictly_in_order r -> (forall x y, depth45 r x y = 0 \/ depth45 r x y = 1) -> quiet (depth45 r) ->
  Forall is_box pos -> Forall is_box neg ->
  (forall v, In v r -> has_counts v -> odd_point (v_pt v) -> In (box (v_pt v)) pos \/ In (box (v_pt v)) neg) ->
  (forall p, In (box p) pos -> In (box p) neg -> False) ->
  strictly_in_order r2 -> (forall x y, depth45 r2 x y = if 0 <? depth45 r x y + num pos x y - num neg x y then 1 else 0) ->
  Forall (fun v => has_counts v -> even_vertex v) r2.
Proof.
  intros S D Q BP BN COV DIS S2 D2.
  assert (QN : forall bs, Forall is_box bs -> quiet (num bs)).
  { intros bs B. destruct (box_list bs B) as [B1 B2]. apply (quiet_op (fun u _ => u) (depth45 (insert_boxes false bs [])) (depth45 [])).
    - intros x y. rewrite (boxes_depth false bs [] x y B1). unfold depth45, hole_sign. cbn [tot]. lia.
    - apply quiet_depth, boxes_forall; [|constructor]. intros q I. apply rect_even. rewrite Forall_forall in B2. apply B2, I.
    - apply quiet_depth. constructor. }
  assert (Q2 : quiet (depth45 r2)).
  { apply (quiet_op (fun u v => if 0 <? u + v then 1 else 0) (depth45 r) (fun x y => num pos x y - num neg x y)); [intros x y; rewrite D2; replace (depth45 r x y + num pos x y - num neg x y) with (depth45 r x y + (num pos x y - num neg x y)) by lia; reflexivity|exact Q|]. apply (quiet_op Z.sub (num pos) (num neg)); [reflexivity|apply QN, BP|apply QN, BN]. }
  apply Forall_forall. intros v V H. destruct (slope_of v H) as [s [Hs K]]. rewrite <- (strict_count r2 v s S2 V) in K. pose proof (quiet_counts r2 (v_pt v) s Q2 Hs K) as P.
  destruct (Z.even (px (v_pt v))) eqn:E.
  - destruct (s =? 0); [exact P|]. unfold same_parity in P. split; congruence.
  - exfalso. assert (O : odd_point (v_pt v)).
    { destruct (s =? 0); [destruct P as [P _]; congruence|]. unfold same_parity in P. split; rewrite <- Z.negb_even; [rewrite E|rewrite <- P, E]; reflexivity. }
    apply K. set (p := v_pt v) in *. pose proof (num_near p pos) as NP. pose proof (num_near p neg) as NN.
    destruct (in_dec _ (box p) pos) as [IP|IP].
    + apply (count_const p s r2 1 Hs). intros x y N. specialize (NP x y O BP N). specialize (NN x y O BN N). destruct (in_dec _ (box p) neg) as [IN|IN]; [destruct (DIS p IP IN)|]. rewrite D2. destruct (D x y); replace (0 <? _) with true by lia; reflexivity.
    + destruct (in_dec _ (box p) neg) as [IN|IN].
      * apply (count_const p s r2 0 Hs). intros x y N. specialize (NP x y O BP N). specialize (NN x y O BN N). rewrite D2. destruct (D x y); replace (0 <? _) with false by lia; reflexivity.
      * rewrite (count_local p s r2 r Hs); [|intros x y N; specialize (NP x y O BP N); specialize (NN x y O BN N); rewrite D2; destruct (D x y) as [D0|D0]; rewrite NP, NN, D0; reflexivity].
        destruct (Z.eq_dec (count_at p s r) 0) as [Z0|Z0]; [exact Z0|]. exfalso. destruct (count_in r p s Z0) as [w [W1 W2]]. rewrite <- W2, (strict_count r w s S W1) in Z0.
        assert (HW : has_counts w). { unfold has_counts. unfold slope_count in Z0. destruct (s =? -1), (s =? 0), (s =? 1); lia. }
        rewrite <- W2 in IP, IN, O. destruct (COV w W1 HW O) as [I|I]; [exact (IP I)|exact (IN I)].
Qed.
