(* Lemmas about maps of segments, their order and their envelope. *)
From Verif Require Import Base Scan90Spec Set90Spec Set90Model GeoSpec IvlModel IvlProofs RectModel RectProofs RectArith RectDist SegModel SegProofs SegMeet.

Definition f_agrees (f : point -> outcome point) (m : amap) : Prop := forall p p', f p = Ok p' -> same_pt (qpt p') (amap_at m (qpt p)).
Lemma amap_inj m p q : amap_ok m -> same_pt (amap_at m p) (amap_at m q) -> same_pt p q.
Proof.
  intros [N1 N2] [A B]. unfold amap_at in *. destruct (a_swap m), p as [x y], q as [x' y']; cbn [fst snd] in *; unfold same_pt; cbn [fst snd].
  - assert (H : (x * a_sy m == x' * a_sy m)%Q) by lra. assert (K : (y * a_sx m == y' * a_sx m)%Q) by lra. apply Qmult_inj_r in H, K; auto.
  - assert (H : (x * a_sx m == x' * a_sx m)%Q) by lra. assert (K : (y * a_sy m == y' * a_sy m)%Q) by lra. apply Qmult_inj_r in H, K; auto.
Qed.
Lemma amap_wd m p q : same_pt p q -> same_pt (amap_at m p) (amap_at m q).
Proof. intros [A B]. unfold amap_at, same_pt. destruct (a_swap m), p as [x y], q as [x' y']; cbn [fst snd] in *; rewrite A, B; split; reflexivity. Qed.
Lemma seg_map_inv f s s' : seg_map f s = Ok s' -> f (s_low s) = Ok (s_low s') /\ f (s_high s) = Ok (s_high s').
Proof.
  unfold seg_map. intros H. apply obind_inv in H as [l [H1 H]]. apply obind_inv in H as [h [H2 H]].
  assert (E : s' = mk_seg l h) by congruence. subst s'. cbn [s_low s_high]. auto.
Qed.
Lemma seg_map_at f m s s' t : f_agrees f m -> seg_map f s = Ok s' -> same_pt (seg_at s' t) (amap_at m (seg_at s t)).
Proof.
  intros G H. apply seg_map_inv in H as [H1 H2]. apply G in H1 as [L1 L2]. apply G in H2 as [R1 R2].
  unfold seg_at, amap_at, same_pt, qpt in *. cbn [fst snd] in *.
  pose proof (injZ_sub (px (s_high s')) (px (s_low s'))) as X1. pose proof (injZ_sub (py (s_high s')) (py (s_low s'))) as X2.
  pose proof (injZ_sub (px (s_high s)) (px (s_low s))) as X3. pose proof (injZ_sub (py (s_high s)) (py (s_low s))) as X4. rewrite X1, X2.
  destruct (a_swap m); cbn [fst snd] in *; rewrite X3, X4, L1, L2, R1, R2; split; ring.
Qed.
Lemma seg_map_on f m s s' : amap_ok m -> f_agrees f m -> seg_map f s = Ok s' -> forall q, on_seg s' (amap_at m q) <-> on_seg s q.
Proof.
  intros M G H q. split; intros [t [T E]]; exists t; (split; [exact T|]).
  - apply (amap_inj m _ _ M). apply (same_trans _ (seg_at s' t)); [apply same_sym, (seg_map_at f m); assumption|exact E].
  - apply (same_trans _ (amap_at m (seg_at s t))); [apply (seg_map_at f m); assumption|apply amap_wd; exact E].
Qed.
Definition shift_map (x y : Z) : amap := mk_amap false 1 1 (inject_Z x) (inject_Z y).
Lemma shift_map_ok x y : amap_ok (shift_map x y). Proof. split; intros H; vm_compute in H; discriminate. Qed.
Lemma seg_shift f x y s s' : (forall p p', f p = Ok p' -> p' = mk_pt (px p + x) (py p + y)) -> seg_map f s = Ok s' ->
  forall q, on_seg s' q <-> on_seg s (fst q - inject_Z x, snd q - inject_Z y)%Q.
Proof.
  intros G H q. rewrite <- (seg_map_on f (shift_map x y) s s' (shift_map_ok x y)); [|intros p p' E; apply G in E; subst p'|exact H].
  - split; apply on_seg_wd; unfold same_pt, amap_at, shift_map; cbn [a_swap a_sx a_sy a_tx a_ty fst snd]; split; ring.
  - unfold same_pt, amap_at, shift_map, qpt; cbn [a_swap a_sx a_sy a_tx a_ty fst snd px py]. rewrite !inject_Z_plus. split; ring.
Qed.
Lemma seg_convolve_on s v s' : seg_convolve s v = Ok s' -> forall q, on_seg s' q <-> on_seg s (fst q - inject_Z (px v), snd q - inject_Z (py v))%Q.
Proof. apply seg_shift. intros p p' H. apply pt_convolve_inv in H. tauto. Qed.
Lemma seg_deconvolve_on s v s' : seg_deconvolve s v = Ok s' -> forall q, on_seg s' q <-> on_seg s (fst q + inject_Z (px v), snd q + inject_Z (py v))%Q.
Proof.
  intros H q. assert (G : forall p p', pt_deconvolve p v = Ok p' -> p' = mk_pt (px p + - px v) (py p + - py v)).
  { intros p p' E. apply pt_deconvolve_inv in E as [-> _]. f_equal; ring. }
  rewrite (seg_shift _ (- px v) (- py v) s s' G H q), !inject_Z_opp. split; apply on_seg_wd; split; cbn [fst snd]; ring.
Qed.
Lemma seg_move_on s o d s' : seg_move s o d = Ok s' ->
  forall q, on_seg s' q <-> on_seg s (match o with Horizontal => (fst q - inject_Z d, snd q) | Vertical => (fst q, snd q - inject_Z d) end)%Q.
Proof.
  intros H q. destruct o.
  - assert (G : forall p p', pt_move p Horizontal d = Ok p' -> p' = mk_pt (px p + d) (py p + 0)).
    { intros p p' E. apply pt_move_inv in E as [-> _]. f_equal; ring. }
    rewrite (seg_shift _ d 0 s s' G H q). split; apply on_seg_wd; split; cbn [fst snd]; change (inject_Z 0) with 0%Q; ring.
  - assert (G : forall p p', pt_move p Vertical d = Ok p' -> p' = mk_pt (px p + 0) (py p + d)).
    { intros p p' E. apply pt_move_inv in E as [-> _]. f_equal; ring. }
    rewrite (seg_shift _ 0 d s s' G H q). split; apply on_seg_wd; split; cbn [fst snd]; change (inject_Z 0) with 0%Q; ring.
Qed.
Lemma seg_scale_up_on s k s' : 0 < k -> is_int k -> seg_scale_up s k = Ok s' ->
  forall q, on_seg s' q <-> on_seg s (fst q / inject_Z k, snd q / inject_Z k)%Q.
Proof.
  intros K I H q. assert (NZ : ~ (inject_Z k == 0)%Q) by (change 0%Q with (inject_Z 0); rewrite injZ_eq; lia).
  rewrite <- (seg_map_on (fun p => pt_scale_up p k) (mk_amap false (inject_Z k) (inject_Z k) 0 0) s s' (conj NZ NZ)); [|intros p p' E|exact H].
  - split; apply on_seg_wd; unfold same_pt, amap_at; cbn [a_swap a_sx a_sy a_tx a_ty fst snd]; split; field; exact NZ.
  - apply pt_scale_up_inv in E as [-> _]; [|exact I]. unfold same_pt, amap_at, qpt; cbn [a_swap a_sx a_sy a_tx a_ty fst snd px py]. rewrite !inject_Z_mult. split; ring.
Qed.
Lemma seg_inverse (f g : point -> outcome point) s s' : (forall p p', pt_int p -> f p = Ok p' -> g p' = Ok p) -> seg_int s -> seg_map f s = Ok s' -> seg_map g s' = Ok s.
Proof.
  intros G [A B] H. apply seg_map_inv in H as [H1 H2]. unfold seg_map. rewrite (G _ _ A H1). cbn [obind]. rewrite (G _ _ B H2). cbn [obind]. destruct s; reflexivity.
Qed.
Lemma seg_convolve_inverse s v s' : seg_int s -> seg_convolve s v = Ok s' -> seg_deconvolve s' v = Ok s.
Proof. intros S. apply seg_inverse; [|exact S]. intros p p' P H. apply pt_convolve_inverse; assumption. Qed.
Lemma seg_deconvolve_inverse s v s' : seg_int s -> seg_deconvolve s v = Ok s' -> seg_convolve s' v = Ok s.
Proof. intros S. apply seg_inverse; [|exact S]. intros p p' P H. apply pt_deconvolve_inverse; assumption. Qed.
Lemma seg_move_inverse s o d s' : seg_int s -> seg_move s o d = Ok s' -> seg_move s' o (- d) = Ok s.
Proof. intros S. apply seg_inverse; [|exact S]. intros p p' P H. apply pt_move_inverse; assumption. Qed.
Lemma seg_scale_inverse s k s' : 0 < k -> is_int k -> seg_int s -> seg_scale_up s k = Ok s' -> seg_scale_down s' k = Ok s.
Proof. intros K I S. apply seg_inverse; [|exact S]. intros p p' P H. f_equal. apply pt_scale_inverse; assumption. Qed.
Lemma seg_transform_on f m s s' : amap_ok m ->
  (forall p p', f p = Ok p' -> same_pt (inject_Z (fst p'), inject_Z (snd p')) (amap_at m (inject_Z (fst p), inject_Z (snd p)))) ->
  seg_transform f s = Ok s' -> forall q, on_seg s' (amap_at m q) <-> on_seg s q.
Proof.
  intros M G. apply seg_map_on; [exact M|]. intros p p' H. unfold pt_map in H. apply obind_inv in H as [[x y] [H1 H2]].
  apply G in H1. assert (E : p' = mk_pt x y) by congruence. subst p'. exact H1.
Qed.
(* center *)
Lemma seg_center_defined s : (exists c, seg_center s = Ok c) <-> is_int (px (s_low s) + px (s_high s)) /\ is_int (py (s_low s) + py (s_high s)).
Proof.
  unfold seg_center. rewrite (Z.add_comm (px (s_low s))), (Z.add_comm (py (s_low s))). split.
  - intros [c H]. apply obind_inv in H as [x [H1 H]]. apply obind_inv in H as [y [H2 _]]. apply chk_inv in H1 as [_ ?], H2 as [_ ?]. auto.
  - intros [A B]. rewrite (chk_ok _ A), (chk_ok _ B). cbn [obind]. eauto.
Qed.
Lemma seg_center_spec s c : seg_center s = Ok c ->
  2 * Z.abs (px c) <= Z.abs (px (s_low s) + px (s_high s)) < 2 * Z.abs (px c) + 2 /\ 0 <= px c * (px (s_low s) + px (s_high s)) /\
  2 * Z.abs (py c) <= Z.abs (py (s_low s) + py (s_high s)) < 2 * Z.abs (py c) + 2 /\ 0 <= py c * (py (s_low s) + py (s_high s)).
Proof.
  unfold seg_center. intros H. apply obind_inv in H as [x [H1 H]]. apply obind_inv in H as [y [H2 H]]. apply chk_inv in H1 as [-> _], H2 as [-> _].
  assert (E : c = mk_pt (Z.quot (px (s_high s) + px (s_low s)) 2) (Z.quot (py (s_high s) + py (s_low s)) 2)) by congruence. subst c; cbn [px py].
  set (a := px (s_high s) + px (s_low s)). set (b := py (s_high s) + py (s_low s)). replace (px (s_low s) + px (s_high s)) with a by (unfold a; ring). replace (py (s_low s) + py (s_high s)) with b by (unfold b; ring).
  pose proof (Z.quot_rem' a 2). pose proof (Z.quot_rem' b 2). pose proof (Z.rem_bound_abs a 2 ltac:(lia)). pose proof (Z.rem_bound_abs b 2 ltac:(lia)).
  pose proof (Z.rem_sign_mul a 2 ltac:(lia)). pose proof (Z.rem_sign_mul b 2 ltac:(lia)). clearbody a b.
  set (qa := a ÷ 2) in *. set (ra := Z.rem a 2) in *. set (qb := b ÷ 2) in *. set (rb := Z.rem b 2) in *. clearbody qa qb ra rb.
  assert (RA : ra = 0 \/ ra = 1 \/ ra = -1) by lia. assert (RB : rb = 0 \/ rb = 1 \/ rb = -1) by lia.
  split; [|split; [|split]]; destruct RA as [->|[->| ->]], RB as [->|[->| ->]]; try nia; subst a b; nia.
Qed.
(* equality and order *)
Lemma seg_eqb_spec s t : seg_eqb s t = true <-> s = t.
Proof.
  unfold seg_eqb. rewrite andb_true_iff, !pt_eqb_spec. destruct s as [l h], t as [l' h']; cbn [s_low s_high]. split; [intros [-> ->]; reflexivity|intros E; split; congruence].
Qed.
Lemma seg_less_lex s t : seg_less s t = true <-> pt_less (s_low s) (s_low t) = true \/ (s_low s = s_low t /\ pt_less (s_high s) (s_high t) = true).
Proof.
  unfold seg_less. destruct (pt_eqb (s_low s) (s_low t)) eqn:E; cbn [negb].
  - apply pt_eqb_spec in E. rewrite E, pt_less_irrefl. intuition discriminate.
  - split; [auto|]. intros [H|[H _]]; [exact H|]. apply pt_eqb_spec in H. congruence.
Qed.
Lemma seg_less_irrefl s : seg_less s s = false.
Proof. destruct (seg_less s s) eqn:E; [|reflexivity]. apply seg_less_lex in E. rewrite !pt_less_irrefl in E. intuition discriminate. Qed.
Lemma seg_less_trans r s t : seg_less r s = true -> seg_less s t = true -> seg_less r t = true.
Proof.
  rewrite !seg_less_lex. intros [A|[A A']] [B|[B B']].
  - left. exact (pt_less_trans _ _ _ A B).
  - left. rewrite <- B. exact A.
  - left. rewrite A. exact B.
  - right. split; [congruence|]. exact (pt_less_trans _ _ _ A' B').
Qed.
Lemma seg_less_total s t : seg_less s t = true \/ s = t \/ seg_less t s = true.
Proof.
  rewrite !seg_less_lex. destruct (pt_less_total (s_low s) (s_low t)) as [A|[A|A]]; [tauto| |tauto].
  destruct (pt_less_total (s_high s) (s_high t)) as [B|[B|B]]; [tauto| |].
  - right. left. destruct s as [a b], t as [c d]; cbn [s_low s_high] in *; congruence.
  - right. right. right. auto.
Qed.
(* envelope *)
Definition covers (r : rect) (p : point) : Prop := in_rectq true r (qpt p).
Lemma in_rect_convex r s q : covers r (s_low s) -> covers r (s_high s) -> on_seg s q -> in_rectq true r q.
Proof.
  intros [[A1 A2] [A3 A4]] [[B1 B2] [B3 B4]] [t [T [E1 E2]]]. unfold qpt, seg_at in *; cbn [fst snd] in *. rewrite injZ_sub in E1, E2.
  unfold in_rectq, in_ivl. rewrite <- E1, <- E2. repeat split; nra.
Qed.
Lemma encompass_pt_spec r p : rect_ok r -> let r' := snd (r_encompass_pt r p) in
  rect_ok r' /\ covers r' p /\ (forall z, in_rectq true r z -> in_rectq true r' z) /\
  (forall h, covers h p -> (forall z, in_rectq true r z -> in_rectq true h z) -> forall z, in_rectq true r' z -> in_rectq true h z).
Proof.
  intros R. cbv zeta. rewrite r_encompass_pt_as by exact R.
  assert (O : rect_ok (mk_rect (px p) (px p) (py p) (py p))) by (unfold rect_ok; cbn [xl xh yl yh]; lia).
  destruct (r_encompass_spec r _ R O) as [[H1 H2] _]. split; [|split; [|split]].
  - rewrite r_encompass_eq by assumption. cbn [snd]. unfold rect_ok, r_hull in *; cbn [xl xh yl yh] in *. lia.
  - apply H1. right. apply in_point_rect. split; reflexivity.
  - intros z Hz. apply H1. left. exact Hz.
  - intros h C G. apply H2. intros z [Hz|Hz]; [apply G; exact Hz|]. apply in_point_rect in Hz as [E1 E2]. unfold covers, in_rectq, in_ivl in *. rewrite E1, E2. exact C.
Qed.
Definition ends (l : list seg) (p : point) : Prop := exists s, In s l /\ (p = s_low s \/ p = s_high s).
Lemma envelope_loop_spec l : forall r, rect_ok r -> let r' := envelope_loop r l in
  rect_ok r' /\ (forall p, ends l p -> covers r' p) /\ (forall z, in_rectq true r z -> in_rectq true r' z) /\
  (forall h, (forall p, ends l p -> covers h p) -> (forall z, in_rectq true r z -> in_rectq true h z) -> forall z, in_rectq true r' z -> in_rectq true h z).
Proof.
  induction l as [|s l IH]; intros r R; cbv zeta; cbn [envelope_loop].
  - split; [exact R|]. split; [intros p [s [[] _]]|]. split; auto.
  - destruct (encompass_pt_spec r (s_low s) R) as [A1 [A2 [A3 A4]]]. set (r1 := snd (r_encompass_pt r (s_low s))) in *.
    destruct (encompass_pt_spec r1 (s_high s) A1) as [B1 [B2 [B3 B4]]]. set (r2 := snd (r_encompass_pt r1 (s_high s))) in *.
    destruct (IH r2 B1) as [C1 [C2 [C3 C4]]]. split; [exact C1|]. split; [|split].
    + intros p [t [[<-|I] E]].
      * destruct E as [-> | ->]; apply C3; [apply B3; exact A2|exact B2].
      * apply C2. exists t. auto.
    + auto.
    + intros h H G. apply C4.
      * intros p [t [I E]]. apply H. exists t. split; [right; exact I|exact E].
      * apply B4; [apply H; exists s; split; [left; reflexivity|auto]|]. apply A4; [apply H; exists s; split; [left; reflexivity|auto]|exact G].
Qed.
Lemma envelope_spec r0 l : fst (envelope_segments r0 l) = true <-> l <> [].
Proof. destruct l; cbn [envelope_segments fst]; split; intros H; congruence. Qed.
Lemma envelope_empty r0 : envelope_segments r0 [] = (false, r0).
Proof. reflexivity. Qed.
Lemma envelope_least r0 l : l <> [] -> let r := snd (envelope_segments r0 l) in
  rect_ok r /\ (forall s q, In s l -> on_seg s q -> in_rectq true r q) /\
  (forall h, (forall s q, In s l -> on_seg s q -> in_rectq true h q) -> forall z, in_rectq true r z -> in_rectq true h z).
Proof.
  destruct l as [|s l]; [congruence|]. intros _. cbv zeta. cbn [envelope_segments snd].
  destruct (r_set_points_spec (s_low s) (s_high s)) as [A1 [_ [A2 [A3 A4]]]].
  destruct (envelope_loop_spec l _ A1) as [C1 [C2 [C3 C4]]]. split; [exact C1|]. split.
  - intros t q [<-|I] O.
    + apply (in_rect_convex _ s); [apply C3; exact A2|apply C3; exact A3|exact O].
    + apply (in_rect_convex _ t); [apply C2; exists t; auto|apply C2; exists t; auto|exact O].
  - intros h H. apply C4.
    + intros p [t [I E]]. destruct E as [-> | ->]; apply (H t); try (right; exact I); [apply on_seg_low|apply on_seg_high].
    + apply A4; apply (H s); try (left; reflexivity); [apply on_seg_low|apply on_seg_high].
Qed.
