(* C10: the member functions bloat, shrink and resize of Manhattan polygon sets,
   which move the edges of the polygons of the set. [grown w e s n P] is the
   Minkowski sum of P with the box [-w,e] x [-s,n], [shrunk w e s n P] the cells
   whose box lies in P, [resized] the combination for amounts of any sign
   (ResizeSpec). For bloat2 and shrink2 see P_Resize. *)
From Verif Require Import Base Scan90Spec IsoSpec Set90Spec Set90Model Set90Proofs Set90Cor
  ResizeSpec ResizePolyModel ResizePolyTotals ResizePolyCor P_Resize.

(* bloat covers exactly the grown region, without negative counts. The only other
   outcome is signed overflow, and then the grown region leaves the coordinate
   range or the sum of opposite amounts does. *)
Theorem C10_bloat : forall st i w e s n, reachable st -> 0 <= w -> 0 <= e -> 0 <= s -> 0 <= n ->
  match ps_bloat w e s n (st i) with
  | Ok t => ps_orient t = ps_orient (st i) /\ (forall x y, 0 <= ps_count t x y) /\
      forall x y, ps_covers t x y <-> grown w e s n (ps_covers (st i)) x y
  | Overflow => (exists x y, grown w e s n (ps_covers (st i)) x y /\
      ~ (is_int x /\ is_int (x + 1) /\ is_int y /\ is_int (y + 1))) \/ INT_MAX < w + e \/ INT_MAX < s + n
  | Undefined => False
  end.
Proof.
  intros st i w e s n H Hw He Hs Hn.
  pose proof (bloat_spec w e s n (st i) Hw He Hs Hn (reachable_ok st i H)) as K.
  destruct (ps_bloat w e s n (st i)); [tauto|exact K|exact K].
Qed.
Print Assumptions C10_bloat.
Example C10_bloat_demo : exists t, ps_bloat 1 2 1 2 (demo10_store 0%nat) = Ok t /\
  ps_count t (-1) (-1) = 1 /\ ps_count t (-2) 0 = 0 /\ ps_count t 4 4 = 1 /\ ps_count t 11 3 = 1 /\ ps_count t 22 3 = 0.
Proof. eexists. split; [vm_compute; reflexivity|]. vm_compute. repeat split. Qed.
Example C10_bloat_hole_demo : exists t, ps_bloat 0 1 0 1 (demo10_store 0%nat) = Ok t /\ ps_count t 3 4 = 1 /\ ps_count t 4 4 = 0 /\ ps_count t 5 5 = 0 /\ ps_count t 6 6 = 1.
Proof. eexists. split; [vm_compute; reflexivity|]. vm_compute. repeat split. Qed.

(* shrink covers exactly the shrunk region; no count exceeds 1, but counts may be
   negative (see below) *)
Theorem C10_shrink : forall st i w e s n, reachable st -> 0 <= w -> 0 <= e -> 0 <= s -> 0 <= n ->
  match ps_shrink w e s n (st i) with
  | Ok t => ps_orient t = ps_orient (st i) /\ (forall x y, ps_count t x y <= 1) /\
      forall x y, ps_covers t x y <-> shrunk w e s n (ps_covers (st i)) x y
  | Overflow => (exists x y, ps_covers (st i) x y /\
      ~ (INT_MIN <= x + 1 - e /\ x + w <= INT_MAX /\ INT_MIN <= y + 1 - n /\ y + s <= INT_MAX)) \/
      INT_MAX < w + e \/ INT_MAX < s + n
  | Undefined => False
  end.
Proof.
  intros st i w e s n H Hw He Hs Hn.
  pose proof (shrink_spec w e s n (st i) Hw He Hs Hn (reachable_ok st i H)) as K.
  destruct (ps_shrink w e s n (st i)); [tauto|exact K|exact K].
Qed.
Print Assumptions C10_shrink.
Example C10_shrink_demo : exists t, ps_shrink 1 1 1 1 (demo10_store 0%nat) = Ok t /\
  ps_count t 1 1 = 1 /\ ps_count t 2 2 = 0 /\ ps_count t 1 4 = 1 /\ ps_count t 13 2 = 1 /\ ps_count t 12 2 = 0.
Proof. eexists. split; [vm_compute; reflexivity|]. vm_compute. repeat split. Qed.

(* growing and then shrinking by the same amounts contains the original, and
   shrinking and then growing is contained in it *)
Theorem C10_bloat_shrink : forall st i w e s n t u, reachable st -> 0 <= w -> 0 <= e -> 0 <= s -> 0 <= n ->
  ps_bloat w e s n (st i) = Ok t -> ps_shrink w e s n t = Ok u ->
  forall x y, ps_covers (st i) x y -> ps_covers u x y.
Proof.
  intros st i w e s n t u H Hw He Hs Hn E1 E2 x y C.
  pose proof (bloat_spec w e s n (st i) Hw He Hs Hn (reachable_ok st i H)) as K1. rewrite E1 in K1. destruct K1 as [Ot [_ [_ K1]]].
  pose proof (shrink_spec w e s n t Hw He Hs Hn Ot) as K2. rewrite E2 in K2. destruct K2 as [_ [_ [_ K2]]].
  apply K2. intros a b Ha Hb. apply K1. exists x, y. split; [exact C|]. lia.
Qed.
Print Assumptions C10_bloat_shrink.
Theorem C10_shrink_bloat : forall st i w e s n t u, reachable st -> 0 <= w -> 0 <= e -> 0 <= s -> 0 <= n ->
  ps_shrink w e s n (st i) = Ok t -> ps_bloat w e s n t = Ok u ->
  forall x y, ps_covers u x y -> ps_covers (st i) x y.
Proof.
  intros st i w e s n t u H Hw He Hs Hn E1 E2 x y C.
  pose proof (shrink_spec w e s n (st i) Hw He Hs Hn (reachable_ok st i H)) as K1. rewrite E1 in K1. destruct K1 as [Ot [_ [_ K1]]].
  pose proof (bloat_spec w e s n t Hw He Hs Hn Ot) as K2. rewrite E2 in K2. destruct K2 as [_ [_ [_ K2]]].
  apply K2 in C as [a [b [C K]]]. apply K1 in C. apply C; lia.
Qed.
Print Assumptions C10_shrink_bloat.
Example C10_bloat_shrink_demo : exists t u, ps_bloat 1 2 1 2 (demo10_store 0%nat) = Ok t /\ ps_shrink 1 2 1 2 t = Ok u /\
  ps_count u 4 4 = 1 /\ ps_count u 0 0 = 1 /\ ps_count u (-1) 0 = 0.
Proof. eexists _, _. split; [vm_compute; reflexivity|]. split; [vm_compute; reflexivity|]. vm_compute. repeat split. Qed.
Example C10_shrink_bloat_demo : exists t u, ps_shrink 1 0 1 0 (demo10_store 0%nat) = Ok t /\ ps_bloat 1 0 1 0 t = Ok u /\
  ps_count u 0 0 = 1 /\ ps_count u 4 4 = 0 /\ ps_count u 12 1 = 1.
Proof. eexists _, _. split; [vm_compute; reflexivity|]. split; [vm_compute; reflexivity|]. vm_compute. repeat split. Qed.

(* moving one side only *)
Theorem C10_bloat_direction : forall st i d a t, reachable st -> 0 <= a -> ps_bloat_dir d a (st i) = Ok t ->
  forall x y, ps_covers t x y <-> exists k, 0 <= k <= a /\ ps_covers (st i) (x - k * fst (unit_vec d)) (y - k * snd (unit_vec d)).
Proof.
  intros st i d a t H Ha E x y. pose proof (fun w e s n Hw He Hs Hn => bloat_spec w e s n (st i) Hw He Hs Hn (reachable_ok st i H)) as K.
  destruct d; cbn [ps_bloat_dir unit_vec fst snd] in *; [specialize (K a 0 0 0)|specialize (K 0 a 0 0)|specialize (K 0 0 a 0)|specialize (K 0 0 0 a)];
    specialize (K ltac:(lia) ltac:(lia) ltac:(lia) ltac:(lia)); rewrite E in K; destruct K as [_ [_ [_ K]]]; rewrite K; unfold grown; (split; [intros [p [q [C B]]]|intros [k [Hk C]]]).
  - exists (p - x). split; [lia|]. replace (x - (p - x) * -1) with p by lia. replace (y - (p - x) * 0) with q by lia. exact C.
  - eexists _, _. split; [exact C|lia].
  - exists (x - p). split; [lia|]. replace (x - (x - p) * 1) with p by lia. replace (y - (x - p) * 0) with q by lia. exact C.
  - eexists _, _. split; [exact C|lia].
  - exists (q - y). split; [lia|]. replace (x - (q - y) * 0) with p by lia. replace (y - (q - y) * -1) with q by lia. exact C.
  - eexists _, _. split; [exact C|lia].
  - exists (y - q). split; [lia|]. replace (x - (y - q) * 0) with p by lia. replace (y - (y - q) * 1) with q by lia. exact C.
  - eexists _, _. split; [exact C|lia].
Qed.
Print Assumptions C10_bloat_direction.
(* shrinking in a direction cuts from the side of that direction *)
Theorem C10_shrink_direction : forall st i d a t, reachable st -> 0 <= a -> ps_shrink_dir d a (st i) = Ok t ->
  forall x y, ps_covers t x y <-> forall k, 0 <= k <= a -> ps_covers (st i) (x + k * fst (unit_vec d)) (y + k * snd (unit_vec d)).
Proof.
  intros st i d a t H Ha E x y. pose proof (fun w e s n Hw He Hs Hn => shrink_spec w e s n (st i) Hw He Hs Hn (reachable_ok st i H)) as K.
  destruct d; cbn [ps_shrink_dir unit_vec fst snd] in *; [specialize (K a 0 0 0)|specialize (K 0 a 0 0)|specialize (K 0 0 a 0)|specialize (K 0 0 0 a)];
    specialize (K ltac:(lia) ltac:(lia) ltac:(lia) ltac:(lia)); rewrite E in K; destruct K as [_ [_ [_ K]]]; rewrite K; unfold shrunk; (split; [intros C k Hk; apply C; lia|intros C p q Hp Hq]).
  - specialize (C (x - p) ltac:(lia)). replace (x + (x - p) * -1) with p in C by lia. replace (y + (x - p) * 0) with q in C by lia. exact C.
  - specialize (C (p - x) ltac:(lia)). replace (x + (p - x) * 1) with p in C by lia. replace (y + (p - x) * 0) with q in C by lia. exact C.
  - specialize (C (y - q) ltac:(lia)). replace (x + (y - q) * 0) with p in C by lia. replace (y + (y - q) * -1) with q in C by lia. exact C.
  - specialize (C (q - y) ltac:(lia)). replace (x + (q - y) * 0) with p in C by lia. replace (y + (q - y) * 1) with q in C by lia. exact C.
Qed.
Print Assumptions C10_shrink_direction.
Example C10_direction_demo : exists t u, ps_bloat_dir East 1 (demo10_store 0%nat) = Ok t /\ ps_count t 3 4 = 1 /\ ps_count t 4 4 = 0 /\ ps_count t 9 4 = 1 /\ ps_count t (-1) 4 = 0 /\
  ps_shrink_dir East 1 (demo10_store 0%nat) = Ok u /\ ps_count u 0 0 = 1 /\ ps_count u 2 4 = 0 /\ ps_count u 6 4 = 1 /\ ps_count u 8 4 = 0.
Proof. eexists _, _. split; [vm_compute; reflexivity|]. repeat (split; [vm_compute; reflexivity|]). vm_compute. reflexivity. Qed.

(* resize with amounts of any sign *)
Theorem C10_resize : forall st i w e s n, reachable st ->
  match ps_resize w e s n (st i) with
  | Ok t => ps_orient t = ps_orient (st i) /\ forall x y, ps_covers t x y <-> resized w e s n (ps_covers (st i)) x y
  | Overflow => True
  | Undefined => False
  end.
Proof.
  intros st i w e s n H. pose proof (resize_spec w e s n (st i) (reachable_ok st i H)) as K. destruct (ps_resize w e s n (st i)); [tauto|exact K|exact K].
Qed.
Print Assumptions C10_resize.
(* it does not overflow if the vertices and amounts stay below a sixth of the range *)
Theorem C10_resize_no_overflow : forall st i B w e s n, reachable st -> in_square B (st i) -> 0 <= B -> 6 * B <= INT_MAX ->
  - B <= w <= B -> - B <= e <= B -> - B <= s <= B -> - B <= n <= B -> exists t, ps_resize w e s n (st i) = Ok t.
Proof.
  intros st i B w e s n H Q HB HM Bw Be Bs Bn. pose proof (resize_total B w e s n (st i) (reachable_ok st i H) Q HB HM Bw Be Bs Bn) as K.
  pose proof (resize_spec w e s n (st i) (reachable_ok st i H)) as K2. destruct (ps_resize w e s n (st i)) as [t| |]; [exists t; reflexivity|congruence|destruct K2].
Qed.
Print Assumptions C10_resize_no_overflow.
Example C10_resize_square : in_square 20 (demo10_store 0%nat) /\ 6 * 20 <= INT_MAX.
Proof. split; [|unfold INT_MAX; lia]. intros v Hv. vm_compute in Hv. repeat (destruct Hv as [<-|Hv]; [vm_compute; repeat split; discriminate|]). destruct Hv. Qed.
Example C10_resize_demo : exists t, ps_resize 2 1 (-1) 0 (demo10_store 0%nat) = Ok t /\
  ps_count t (-2) 1 = 1 /\ ps_count t (-2) 0 = 0 /\ ps_count t 3 3 = 1 /\ ps_count t 4 3 = 1 /\ ps_count t 4 6 = 1 /\ ps_count t 10 3 = 1.
Proof. eexists. split; [vm_compute; reflexivity|]. vm_compute. repeat split. Qed.
Example C10_resize_shrink_demo : exists t, ps_resize (-1) (-1) (-1) 1 (demo10_store 0%nat) = Ok t /\ ps_count t 1 1 = 1 /\ ps_count t 1 0 = 0.
Proof. eexists. split; [vm_compute; reflexivity|]. vm_compute. repeat split. Qed.

(* Two squares joined by a bar. *)
Definition dumbbell : list op :=
  [ONew 0 Vertical; OInsertRect 0 (mk_rect 0 10 0 10) false; OInsertRect 0 (mk_rect 20 30 0 10) false; OInsertRect 0 (mk_rect 10 20 4 6) false].
Lemma dumbbell_ok : Forall op_ok dumbbell.
Proof. unfold dumbbell. repeat (constructor; [cbn [op_ok]; unfold rect_ok, is_int, INT_MIN, INT_MAX; cbn [xl xh yl yh]; try exact I; lia|]). constructor. Qed.
Definition dumbbell_store : store := match run start dumbbell with Ok (st, _) => st | _ => start end.
Lemma dumbbell_reachable : reachable dumbbell_store.
Proof. exists dumbbell, []. split; [exact dumbbell_ok|reflexivity]. Qed.
(* After shrink (which unlike shrink2 does not normalise the set) a rectangle that
   is inserted need not be covered: the bar has turned inside out and the counts in
   it are negative. *)
Theorem C10_insert_after_shrink_refuted : exists st i r t x y, reachable st /\ ps_shrink 2 2 2 2 (st i) = Ok t /\
  rect_ok r /\ xl r <= x < xh r /\ yl r <= y < yh r /\ ~ ps_covers (ps_insert_rect t r false) x y.
Proof.
  exists dumbbell_store, 0%nat, (mk_rect 12 18 4 6). eexists. exists 14, 5. split; [exact dumbbell_reachable|]. split; [vm_compute; reflexivity|].
  split; [unfold rect_ok, is_int, INT_MIN, INT_MAX; cbn [xl xh yl yh]; lia|]. cbn [xl xh yl yh]. split; [lia|]. split; [lia|]. unfold ps_covers. vm_compute. discriminate.
Qed.
Print Assumptions C10_insert_after_shrink_refuted.
