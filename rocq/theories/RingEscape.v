(* The cells to the right of a ring reach the outside of a box; what a moved
   ring winds around. *)
From Verif Require Import Base Units Scan90Spec Poly90Spec PolyCycle PolyFormGood RingWins BoxEuler RingEuler.
From Coq Require Import Arith.

(* the region lies to the left of the edges; where two cells of it meet in a
   point the ring turns left, or it turns right everywhere *)
Record wokk (k : bool) (S : Z -> Z -> bool) (w : win) : Prop := mk_wokk {
  kk_h : gedge S true false (wa w) (wb w) (wc w);
  kk_v : gedge S true true (wb w) (wc w) (wd w);
  kk_z : gedge S true true (wz w) (wa w) (wb w);
  kk_az : wz w <> wb w;
  kk_ac : wa w <> wc w;
  kk_ad : wb w <> wd w;
  kk_c1 : gcorner (fun x y => xorb k (S x y)) true (wz w) (wa w) (wb w) (wc w);
  kk_c2 : gcorner (fun x y => xorb k (S x y)) false (wa w) (wb w) (wc w) (wd w) }.

Lemma wokk_wgood k S w : wokk k S w -> wgood S k w.
Proof.
  intros [H V Zz Az Ac Ad C1 C2]. constructor; try assumption; intros L1 L2; cbn [gedge] in *; unfold gcorner, qd in C1, C2.
  - destruct Zz as [_ Zz]. destruct (Zz (wb w) ltac:(lia)) as [Q1 Q2]. split; [exact Q2|]. intros ->. destruct H as [H _]. destruct (H (wa w) ltac:(lia)) as [Q3 Q4].
    replace (wa w <? wc w) with true in C1 by lia. replace (wb w <? wz w) with true in C1 by lia. rewrite Q3 in C1. cbn [xorb negb] in C1. destruct C1 as [C|C]; [discriminate|]. destruct (S (wa w - 1) (wb w - 1)); [discriminate|reflexivity].
  - destruct Zz as [Zz _]. destruct (Zz (wb w - 1) ltac:(lia)) as [Q1 Q2]. split; [exact Q1|]. intros ->. destruct H as [H _]. destruct (H (wa w) ltac:(lia)) as [Q3 Q4].
    replace (wa w <? wc w) with true in C1 by lia. replace (wb w <? wz w) with false in C1 by lia. rewrite Q4 in C1. cbn [xorb negb] in C1. destruct C1 as [C|C]; [discriminate|]. destruct (S (wa w - 1) (wb w)); [reflexivity|discriminate].
  - destruct V as [V _]. destruct (V (wb w) ltac:(lia)) as [Q1 Q2]. split; [exact Q2|]. intros ->. destruct H as [H _]. destruct (H (wc w - 1) ltac:(lia)) as [Q3 Q4].
    replace (wc w <? wa w) with false in C2 by lia. replace (wb w <? wd w) with true in C2 by lia. rewrite Q3 in C2. cbn [xorb negb] in C2. destruct C2 as [C|C]; [discriminate|]. destruct (S (wc w) (wb w - 1)); [discriminate|reflexivity].
  - destruct V as [_ V]. destruct (V (wb w - 1) ltac:(lia)) as [Q1 Q2]. split; [exact Q1|]. intros ->. destruct H as [H _]. destruct (H (wc w - 1) ltac:(lia)) as [Q3 Q4].
    replace (wc w <? wa w) with false in C2 by lia. replace (wb w <? wd w) with false in C2 by lia. rewrite Q4 in C2. cbn [xorb negb] in C2. destruct C2 as [C|C]; [discriminate|]. destruct (S (wc w) (wb w)); [reflexivity|discriminate].
Qed.

Record aring (Ws : list win) (S : Z -> Z -> bool) (k : bool) (c0 : Z) : Prop := mk_aring {
  r_wn : forall x y, zsum (fun w => b2z (wb w <=? y) * (b2z (wa w <=? x) - b2z (wc w <=? x))) Ws = b2z (S x y) - c0;
  r_cyc : forall F : Z -> Z -> Z -> Z, zsum (fun w => F (wz w) (wa w) (wb w)) Ws = zsum (fun w => F (wb w) (wc w) (wd w)) Ws;
  r_conn : forall V : Z -> Z -> Z -> Prop, (forall w, In w Ws -> (V (wz w) (wa w) (wb w) <-> V (wb w) (wc w) (wd w))) -> (exists w, In w Ws /\ V (wz w) (wa w) (wb w)) -> forall w, In w Ws -> V (wz w) (wa w) (wb w);
  r_w : Forall (wokk k S) Ws }.

Section Esc.
Variables (Ws : list win) (S : Z -> Z -> bool) (k : bool) (c0 : Z).
Hypothesis R : aring Ws S k c0.
Variables (x0 : Z) (n : nat) (y0 : Z) (m : nat).
Hypothesis Hn : (1 <= n)%nat.
Hypothesis Hm : (1 <= m)%nat.
Let B := Sb S x0 n y0 m.
Let E := esc k x0 n y0 m B.
Lemma Sb_false x y : S x y = false -> B x y = false.
Proof. intros H. unfold B, Sb. rewrite H. reflexivity. Qed.
Definition cn (x y u v : Z) : Prop := E x y <-> E u v.
Lemma nb_sym x y u v : nb k x y u v -> nb k u v x y.
Proof. unfold nb. destruct k; intros H; lia. Qed.
Lemma cn_nb x y u v : S x y = false -> S u v = false -> nb k x y u v -> cn x y u v.
Proof. intros H1 H2 H3. split; intros H; [apply (esc_step _ _ _ _ _ _ u v x y)|apply (esc_step _ _ _ _ _ _ x y u v)]; try exact H; try (apply Sb_false; assumption); [apply nb_sym; exact H3|exact H3]. Qed.
Lemma cn_trans x y u v p q : cn x y u v -> cn u v p q -> cn x y p q.
Proof. unfold cn. tauto. Qed.
Lemma cn_sym x y u v : cn x y u v -> cn u v x y.
Proof. unfold cn. tauto. Qed.
Lemma nb_4 x y u v : Z.abs (x - u) + Z.abs (y - v) = 1 -> nb k x y u v.
Proof. unfold nb. destruct k; lia. Qed.
Lemma line_up j : forall x y, (forall i, y <= i <= y + Z.of_nat j -> S x i = false) -> cn x y x (y + Z.of_nat j).
Proof.
  induction j as [|j IH]; intros x y H; [replace (y + Z.of_nat 0) with y by lia; unfold cn; tauto|]. apply (cn_trans _ _ x (y + Z.of_nat j)); [apply IH; intros; apply H; lia|].
  apply cn_nb; [apply H; lia|apply H; lia|]. apply nb_4. lia.
Qed.
Lemma line_right j : forall x y, (forall i, x <= i <= x + Z.of_nat j -> S i y = false) -> cn x y (x + Z.of_nat j) y.
Proof.
  induction j as [|j IH]; intros x y H; [replace (x + Z.of_nat 0) with x by lia; unfold cn; tauto|]. apply (cn_trans _ _ (x + Z.of_nat j) y); [apply IH; intros; apply H; lia|].
  apply cn_nb; [apply H; lia|apply H; lia|]. apply nb_4. lia.
Qed.
Lemma col x y1 y2 : y1 <= y2 -> (forall i, y1 <= i <= y2 -> S x i = false) -> cn x y1 x y2.
Proof. intros L H. replace y2 with (y1 + Z.of_nat (Z.to_nat (y2 - y1))) by lia. apply line_up. intros i Hi. apply H. lia. Qed.
Lemma row y x1 x2 : x1 <= x2 -> (forall i, x1 <= i <= x2 -> S i y = false) -> cn x1 y x2 y.
Proof. intros L H. replace x2 with (x1 + Z.of_nat (Z.to_nat (x2 - x1))) by lia. apply line_right. intros i Hi. apply H. lia. Qed.
(* two cells that meet in a point, and a third one next to both *)
Lemma diag x y u v p q : S x y = false -> S u v = false -> Z.abs (x - u) = 1 -> Z.abs (y - v) = 1 -> (k = true -> S p q = false) -> Z.abs (x - p) + Z.abs (y - q) = 1 -> Z.abs (u - p) + Z.abs (v - q) = 1 -> cn x y u v.
Proof.
  intros H1 H2 A1 A2 H3 A3 A4. destruct (Bool.bool_dec k true) as [Ek|Ek].
  - apply (cn_trans _ _ p q); [apply cn_nb; [exact H1|apply H3; exact Ek|apply nb_4; exact A3]|]. apply cn_nb; [apply H3; exact Ek|exact H2|]. apply nb_4. rewrite <- A4. clear. lia.
  - apply cn_nb; [exact H1|exact H2|]. apply Bool.not_true_is_false in Ek. rewrite Ek. unfold nb. lia.
Qed.

(* the last and the first cell to the right of an edge *)
Definition vx (z a b : Z) : Z := if z <? b then a else a - 1.
Definition vye (z b : Z) : Z := if z <? b then b - 1 else b.
Definition vys (z b : Z) : Z := if z <? b then z else z - 1.
Definition hy (a b c : Z) : Z := if a <? c then b - 1 else b.
Definition hxs (a c : Z) : Z := if a <? c then a else a - 1.
Definition hxe (a c : Z) : Z := if a <? c then c - 1 else c.
Lemma along_v z a b : z <> b -> gedge S true true z a b -> cn (vx z a b) (vys z b) (vx z a b) (vye z b).
Proof.
  intros N [H1 H2]. unfold vx, vys, vye. destruct (Z.ltb_spec z b) as [C|C].
  - apply col; [lia|]. intros i Hi. apply (H1 i). lia.
  - apply cn_sym. apply col; [lia|]. intros i Hi. apply (H2 i). lia.
Qed.
Lemma along_h a b c : a <> c -> gedge S true false a b c -> cn (hxs a c) (hy a b c) (hxe a c) (hy a b c).
Proof.
  intros N [H1 H2]. unfold hy, hxs, hxe. destruct (Z.ltb_spec a c) as [C|C].
  - apply row; [lia|]. intros i Hi. apply (H1 i). lia.
  - apply cn_sym. apply row; [lia|]. intros i Hi. apply (H2 i). lia.
Qed.
Lemma xk b : xorb k b = true -> k = true -> b = false.
Proof. intros H ->. destruct b; [discriminate|reflexivity]. Qed.
Lemma at_c1 w : wokk k S w -> cn (vx (wz w) (wa w) (wb w)) (vye (wz w) (wb w)) (hxs (wa w) (wc w)) (hy (wa w) (wb w) (wc w)).
Proof.
  intros [H V Zz Az Ac Ad C1 C2]. cbn [gedge] in *. destruct H as [H1 H2]. destruct Zz as [Z1 Z2]. unfold gcorner, qd in C1. unfold vx, vye, hy, hxs.
  destruct (Z.ltb_spec (wz w) (wb w)) as [C|C], (Z.ltb_spec (wa w) (wc w)) as [D|D].
  - unfold cn. tauto.
  - replace (wb w <? wz w) with false in C1 by lia. destruct (Z1 (wb w - 1) ltac:(lia)) as [Q1 Q2]. destruct (H2 (wa w - 1) ltac:(lia)) as [Q3 Q4]. 
    apply (diag _ _ _ _ (wa w) (wb w)); [exact Q2|exact Q4|lia|lia| |lia|lia]. intros Ek. destruct C1 as [C1|C1]; [apply (xk _ C1) in Ek; rewrite Q1 in Ek; discriminate|exact (xk _ C1 Ek)].
  - replace (wb w <? wz w) with true in C1 by lia. destruct (Z2 (wb w) ltac:(lia)) as [Q1 Q2]. destruct (H1 (wa w) ltac:(lia)) as [Q3 Q4]. 
    apply (diag _ _ _ _ (wa w - 1) (wb w - 1)); [exact Q2|exact Q4|lia|lia| |lia|lia]. intros Ek. destruct C1 as [C1|C1]; [apply (xk _ C1) in Ek; rewrite Q1 in Ek; discriminate|exact (xk _ C1 Ek)].
  - unfold cn. tauto.
Qed.
Lemma at_c2 w : wokk k S w -> cn (hxe (wa w) (wc w)) (hy (wa w) (wb w) (wc w)) (vx (wb w) (wc w) (wd w)) (vys (wb w) (wd w)).
Proof.
  intros [H V Zz Az Ac Ad C1 C2]. cbn [gedge] in *. destruct H as [H1 H2]. destruct V as [V1 V2]. unfold gcorner, qd in C2. unfold vx, vys, hy, hxe.
  destruct (Z.ltb_spec (wb w) (wd w)) as [C|C], (Z.ltb_spec (wa w) (wc w)) as [D|D].
  - replace (wc w <? wa w) with false in C2 by lia. destruct (V1 (wb w) ltac:(lia)) as [Q1 Q2]. destruct (H1 (wc w - 1) ltac:(lia)) as [Q3 Q4]. 
    apply (diag _ _ _ _ (wc w) (wb w - 1)); [exact Q4|exact Q2|lia|lia| |lia|lia]. intros Ek. destruct C2 as [C2|C2]; [apply (xk _ C2) in Ek; rewrite Q1 in Ek; discriminate|exact (xk _ C2 Ek)].
  - unfold cn. tauto.
  - unfold cn. tauto.
  - replace (wc w <? wa w) with true in C2 by lia. destruct (V2 (wb w - 1) ltac:(lia)) as [Q1 Q2]. destruct (H2 (wc w) ltac:(lia)) as [Q3 Q4]. 
    apply (diag _ _ _ _ (wc w - 1) (wb w)); [exact Q4|exact Q2|lia|lia| |lia|lia]. intros Ek. destruct C2 as [C2|C2]; [apply (xk _ C2) in Ek; rewrite Q1 in Ek; discriminate|exact (xk _ C2 Ek)].
Qed.
Definition free (z a b : Z) : Prop := E (vx z a b) (vye z b).
Lemma free_step w : In w Ws -> (free (wz w) (wa w) (wb w) <-> free (wb w) (wc w) (wd w)).
Proof.
  intros I. pose proof (r_w _ _ _ _ R) as F. rewrite Forall_forall in F. specialize (F w I). pose proof (at_c1 w F) as A1. pose proof (at_c2 w F) as A2. destruct F as [H V Zz Az Ac Ad C1 C2].
  pose proof (along_h _ _ _ Ac H) as A3. pose proof (along_v _ _ _ Ad V) as A4. unfold cn in *. unfold free. tauto.
Qed.
Lemma free_all : (exists w, In w Ws /\ free (wz w) (wa w) (wb w)) -> forall w, In w Ws -> free (wz w) (wa w) (wb w).
Proof. intros H. apply (r_conn _ _ _ _ R); [exact free_step|exact H]. Qed.
Lemma free_cells w y : In w Ws -> wz w <= y < wb w -> E (wa w) y -> free (wz w) (wa w) (wb w).
Proof.
  intros I H Ey. pose proof (r_w _ _ _ _ R) as F. rewrite Forall_forall in F. destruct (F w I) as [_ _ [Z1 _] _ _ _ _ _]. unfold free, vx, vye. replace (wz w <? wb w) with true by lia.
  apply (col (wa w) y (wb w - 1)); [lia| |exact Ey]. intros i Hi. apply (Z1 i). lia.
Qed.
Lemma free_cells' w y : In w Ws -> wb w <= y < wz w -> E (wa w - 1) y -> free (wz w) (wa w) (wb w).
Proof.
  intros I H Ey. pose proof (r_w _ _ _ _ R) as F. rewrite Forall_forall in F. destruct (F w I) as [_ _ [_ Z1] _ _ _ _ _]. unfold free, vx, vye. replace (wz w <? wb w) with false by lia.
  apply (cn_sym _ _ _ _ (col (wa w - 1) (wb w) y ltac:(lia) ltac:(intros i Hi; apply (Z1 i); lia))). exact Ey.
Qed.
Lemma wn_v x y : zsum (fun w => b2z (wa w <=? x) * (b2z (wb w <=? y) - b2z (wz w <=? y))) Ws = b2z (S x y) - c0.
Proof. apply wn_vertical; [apply (r_wn _ _ _ _ R)|apply (r_cyc _ _ _ _ R)]. Qed.
Lemma left_of x y : (forall w, In w Ws -> x < wa w) -> b2z (S x y) = c0.
Proof. intros H. pose proof (wn_v x y) as K. rewrite zsum_zero in K; [lia|]. intros w I. specialize (H w I). replace (wa w <=? x) with false by lia. reflexivity. Qed.
Lemma right_of x y : (forall w, In w Ws -> wa w <= x) -> b2z (S x y) = c0.
Proof.
  intros H. pose proof (wn_v x y) as K. rewrite (zsum_ext _ (fun w => b2z (wb w <=? y) - b2z (wz w <=? y))) in K by (intros w I; specialize (H w I); replace (wa w <=? x) with true by lia; cbn [b2z]; lia).
  rewrite zsum_sub in K. pose proof (r_cyc _ _ _ _ R (fun z a b => b2z (z <=? y))) as C. cbn beta in C. rewrite C in K. lia.
Qed.
Lemma esc_left j : forall x y, x - x0 < Z.of_nat j -> (forall i, i <= x -> S i y = false) -> E x y.
Proof.
  induction j as [|j IH]; intros x y L H; [apply esc_out; unfold inb; lia|]. apply (esc_step _ _ _ _ _ _ x y (x - 1) y); [apply Sb_false; apply H; lia|apply nb_4; lia|]. apply IH; [lia|]. intros i Hi. apply H. lia.
Qed.
(* the two ways for the ring to reach the outside *)
Definition big : Prop := exists u v, In u Ws /\ In v Ws /\ (forall w, In w Ws -> wa u <= wa w <= wa v) /\ Z.of_nat n - 1 <= wa v - wa u.
Lemma min_window l : l <> [] -> exists u, In u l /\ forall w, In w l -> wa u <= wa w.
Proof.
  induction l as [|w l IH]; intros N; [congruence|]. destruct l as [|w' l]; [exists w; split; [left; reflexivity|intros v [<-|[]]; lia]|].
  destruct (IH ltac:(discriminate)) as [u [Iu Mu]]. destruct (Z_le_dec (wa w) (wa u)) as [C|C].
  - exists w. split; [left; reflexivity|]. intros v [<-|Iv]; [lia|]. specialize (Mu v Iv). lia.
  - exists u. split; [right; exact Iu|]. intros v [<-|Iv]; [lia|]. exact (Mu v Iv).
Qed.
Lemma free_some : Ws <> [] -> c0 = 0 \/ (c0 = 1 /\ big) -> exists w, In w Ws /\ free (wz w) (wa w) (wb w).
Proof.
  intros Ne C. pose proof (r_w _ _ _ _ R) as F. rewrite Forall_forall in F. destruct C as [C|[C [u [v [Iu [Iv [M L]]]]]]].
  - destruct (min_window Ws Ne) as [u [Iu Mu]]. exists u. split; [exact Iu|]. destruct (F u Iu) as [_ _ [Z1 Z2] Az _ _ _ _].
    assert (Out : forall x y, x < wa u -> S x y = false) by (intros x y Hx; pose proof (left_of x y ltac:(intros w I; specialize (Mu w I); lia)) as K; destruct (S x y); [cbn [b2z] in K; lia|reflexivity]).
    destruct (Z_lt_dec (wz u) (wb u)) as [D|D].
    + destruct (Z1 (wz u) ltac:(lia)) as [Q _]. rewrite Out in Q by lia. discriminate.
    + apply (free_cells' u (wb u) Iu); [lia|]. apply (esc_left (Z.to_nat (wa u - 1 - x0 + 1))); [lia|]. intros i Hi. apply Out. lia.
  - assert (OutL : forall x y, x < wa u -> S x y = true) by (intros x y Hx; pose proof (left_of x y ltac:(intros w I; specialize (M w I); lia)) as K; destruct (S x y); [reflexivity|cbn [b2z] in K; lia]).
    assert (OutR : forall x y, wa v <= x -> S x y = true) by (intros x y Hx; pose proof (right_of x y ltac:(intros w I; specialize (M w I); lia)) as K; destruct (S x y); [reflexivity|cbn [b2z] in K; lia]).
    destruct (Z_le_dec (wa u) x0) as [D|D].
    + exists u. split; [exact Iu|]. destruct (F u Iu) as [_ _ [Z1 Z2] Az _ _ _ _]. destruct (Z_lt_dec (wz u) (wb u)) as [D'|D'].
      * apply (free_cells u (wz u) Iu); [lia|]. apply (esc_step _ _ _ _ _ _ (wa u) (wz u) (wa u - 1) (wz u)); [apply Sb_false; apply (Z1 (wz u)); lia|apply nb_4; lia|]. apply esc_out. unfold inb. lia.
      * destruct (Z2 (wb u) ltac:(lia)) as [_ Q]. rewrite OutL in Q by lia. discriminate.
    + exists v. split; [exact Iv|]. destruct (F v Iv) as [_ _ [Z1 Z2] Az _ _ _ _]. destruct (Z_lt_dec (wz v) (wb v)) as [D'|D'].
      * destruct (Z1 (wz v) ltac:(lia)) as [_ Q]. rewrite OutR in Q by lia. discriminate.
      * apply (free_cells' v (wb v) Iv); [lia|]. apply (esc_step _ _ _ _ _ _ (wa v - 1) (wb v) (wa v) (wb v)); [apply Sb_false; apply (Z2 (wb v)); lia|apply nb_4; lia|]. apply esc_out. unfold inb. lia.
Qed.
Lemma right_cell x y : S x y = false -> S x (y + 1) = true -> exists w, In w Ws /\ wb w = y + 1 /\ wa w <= x < wc w.
Proof.
  intros H1 H2. pose proof (r_w _ _ _ _ R) as F. assert (G : Forall (wgood S k) Ws) by (eapply Forall_impl; [|exact F]; apply wokk_wgood).
  pose proof (mult_E Ws S k c0 (r_wn _ _ _ _ R) G x (y + 1)) as K. replace (y + 1 - 1) with y in K by lia. rewrite H1, H2 in K. cbn in K.
  destruct (zsum_pos (fun w => b2z ((wb w =? y + 1) && (wa w <=? x) && (x <? wc w))) Ws) as [w [I P]]; [intros w _; destruct (_ && _); cbn; lia|lia|]. exists w. split; [exact I|].
  destruct ((wb w =? y + 1) && (wa w <=? x) && (x <? wc w)) eqn:Ew; [lia|cbn in P; lia].
Qed.
Lemma esc_cells : c0 = 0 \/ (c0 = 1 /\ big) -> forall j x y, y0 + Z.of_nat m - y <= Z.of_nat j -> S x y = false -> E x y.
Proof.
  intros C. induction j as [|j IH]; intros x y L Hs; [apply esc_out; unfold inb; lia|]. destruct (S x (y + 1)) eqn:Eu.
  - destruct (right_cell x y Hs Eu) as [w [I [Eb Ea]]]. assert (Ne : Ws <> []) by (intros N; rewrite N in I; destruct I). pose proof (free_all (free_some Ne C) w I) as Fr.
    pose proof (r_w _ _ _ _ R) as F. rewrite Forall_forall in F. pose proof (at_c1 w (F w I)) as A1. destruct (F w I) as [[H1 _] _ _ _ _ _ _ _]. unfold free in Fr. apply A1 in Fr. unfold hy, hxs in Fr. replace (wa w <? wc w) with true in Fr by lia.
    rewrite Eb in *. replace (y + 1 - 1) with y in * by lia. apply (row y (wa w) x); [lia| |exact Fr]. intros i Hi. apply (H1 i). lia.
  - apply (esc_step _ _ _ _ _ _ x y x (y + 1)); [apply Sb_false; exact Hs|apply nb_4; lia|]. apply IH; [lia|exact Eu].
Qed.
Lemma opened_Sb : c0 = 0 \/ (c0 = 1 /\ big) -> opened k x0 n y0 m B.
Proof.
  intros C. apply esc_opened; try assumption.
  - intros x y H. unfold B, Sb in H. apply andb_prop in H. apply H.
  - intros x y H1 H2. apply (esc_cells C (Z.to_nat (y0 + Z.of_nat m - y))); [lia|]. unfold B, Sb in H2. rewrite H1, andb_true_r in H2. exact H2.
Qed.
Definition mw : Z := zsum (fun w => ay y0 m (wa w) (wb w) (wc w) * (ax x0 n (wz w) (wa w) (wb w) - ax x0 n (wb w) (wc w) (wd w))) Ws.
Lemma mw_chi : mw = chi k x0 n y0 m B - c0.
Proof.
  unfold mw, B. apply moved_euler; [apply (r_wn _ _ _ _ R)|apply (r_cyc _ _ _ _ R)| |exact Hn|exact Hm]. eapply Forall_impl; [|apply (r_w _ _ _ _ R)]. apply wokk_wgood.
Qed.
Lemma mw_none : (forall x y, inb x0 n y0 m x y = true -> S x y = false) -> mw = - c0.
Proof. intros H. rewrite mw_chi, chi_empty; [lia|]. intros x y. unfold B, Sb. destruct (inb x0 n y0 m x y) eqn:Ei; [rewrite H by exact Ei; reflexivity|apply andb_false_r]. Qed.
Lemma mw_full : (forall x y, inb x0 n y0 m x y = true -> S x y = true) -> mw = 1 - c0.
Proof. intros H. rewrite mw_chi, chi_full; [lia|exact Hn|exact Hm|]. intros x y. unfold B, Sb. destruct (inb x0 n y0 m x y) eqn:Ei; [rewrite H by exact Ei; reflexivity|apply andb_false_r]. Qed.
Lemma mw_some x y : c0 = 0 \/ (c0 = 1 /\ big) -> inb x0 n y0 m x y = true -> S x y = true -> 1 - c0 <= mw.
Proof.
  intros C Hi Hs. rewrite mw_chi. enough (1 <= chi k x0 n y0 m B) by lia. apply (chi_pos k x0 n y0 m Hn Hm B x y); [apply opened_Sb; exact C|]. unfold B, Sb. rewrite Hi, Hs. reflexivity.
Qed.
End Esc.
