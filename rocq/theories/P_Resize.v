(* C10: growing and shrinking Manhattan polygon sets. [grown w e s n P] is the
   Minkowski sum of P with the box [-w,e] x [-s,n], [shrunk w e s n P] the cells
   whose box lies in P (ResizeSpec). This file: the member functions
   bloat2 and shrink2, which work on the rectangles of the set; the polygon based
   bloat, shrink and resize are in P_ResizePoly. *)
From Verif Require Import Base Scan90Spec BoolOpModel Set90Spec Set90Model Set90Proofs Set90Cor RectFormSpec RectFormModel
  ResizeSpec ResizeModel ResizeProofs.

Definition demo10 : list op :=
  [ONew 0 Vertical; OInsertRect 0 (mk_rect 0 9 0 9) false; OInsertRect 0 (mk_rect 3 6 3 6) true;
   OInsertRect 0 (mk_rect 12 20 1 5) false; ONew 1 Horizontal; OInsertRect 1 (mk_rect 0 INT_MAX 0 5) false].
Lemma demo10_ok : Forall op_ok demo10.
Proof.
  unfold demo10. repeat (constructor; [cbn [op_ok]; unfold rect_ok, is_int, INT_MIN, INT_MAX; cbn [xl xh yl yh]; try exact I; lia|]).
  constructor.
Qed.
Definition demo10_store : store := match run start demo10 with Ok (st, _) => st | _ => start end.
Lemma demo10_reachable : reachable demo10_store.
Proof. exists demo10, []. split; [exact demo10_ok|reflexivity]. Qed.

(* bloat2 covers exactly the grown region, without negative counts. The only other outcome is signed
   overflow, and then the grown region itself leaves the coordinate range. *)
Theorem C10_bloat2 : forall st i w e s n, reachable st -> 0 <= w -> 0 <= e -> 0 <= s -> 0 <= n ->
  match ps_bloat2 w e s n (st i) with
  | Ok t => ps_orient t = ps_orient (st i) /\ (forall x y, 0 <= ps_count t x y) /\
      forall x y, ps_covers t x y <-> grown w e s n (ps_covers (st i)) x y
  | Overflow => exists x y, grown w e s n (ps_covers (st i)) x y /\
      ~ (is_int x /\ is_int (x + 1) /\ is_int y /\ is_int (y + 1))
  | Undefined => False
  end.
Proof.
  intros st i w e s n H Hw He Hs Hn.
  pose proof (bloat2_spec w e s n (st i) Hw He Hs Hn (reachable_ok st i H)) as K.
  destruct (ps_bloat2 w e s n (st i)); [tauto|exact K|exact K].
Qed.
Print Assumptions C10_bloat2.
Example C10_bloat2_demo : exists t, ps_bloat2 1 2 1 2 (demo10_store 0%nat) = Ok t /\
  ps_count t (-1) (-1) = 1 /\ ps_count t (-2) 0 = 0 /\ ps_count t 4 4 = 2 /\ ps_count t 11 3 = 1 /\ ps_count t 22 3 = 0.
Proof. eexists. split; [vm_compute; reflexivity|]. vm_compute. repeat split. Qed.

(* shrink2 covers exactly the shrunk region, without negative counts. It computes in a box with a margin
   of 10 around the set: overflow is reported only if this margin and the
   amounts do not fit. *)
Theorem C10_shrink2 : forall st i w e s n, reachable st -> 0 <= w -> 0 <= e -> 0 <= s -> 0 <= n ->
  match ps_shrink2 w e s n (st i) with
  | Ok t => ps_orient t = ps_orient (st i) /\ (forall x y, 0 <= ps_count t x y) /\
      forall x y, ps_covers t x y <-> shrunk w e s n (ps_covers (st i)) x y
  | Overflow => exists x y, ps_covers (st i) x y /\
      ~ (INT_MIN <= x - 10 - e /\ x + 1 + 10 + w <= INT_MAX /\
         INT_MIN <= y - 10 - n /\ y + 1 + 10 + s <= INT_MAX)
  | Undefined => False
  end.
Proof.
  intros st i w e s n H Hw He Hs Hn.
  pose proof (shrink2_spec w e s n (st i) Hw He Hs Hn (reachable_ok st i H)) as K.
  destruct (ps_shrink2 w e s n (st i)); [tauto|exact K|exact K].
Qed.
Print Assumptions C10_shrink2.
Example C10_shrink2_demo : exists t, ps_shrink2 1 1 1 1 (demo10_store 0%nat) = Ok t /\
  ps_count t 1 1 = 1 /\ ps_count t 2 2 = 0 /\ ps_count t 1 4 = 1 /\ ps_count t 13 2 = 1 /\ ps_count t 12 2 = 0.
Proof. eexists. split; [vm_compute; reflexivity|]. vm_compute. repeat split. Qed.

(* growing and then shrinking by the same amounts contains the original *)
Theorem C10_bloat2_shrink2 : forall st i w e s n t u, reachable st -> 0 <= w -> 0 <= e -> 0 <= s -> 0 <= n ->
  ps_bloat2 w e s n (st i) = Ok t -> ps_shrink2 w e s n t = Ok u ->
  forall x y, ps_covers (st i) x y -> ps_covers u x y.
Proof.
  intros st i w e s n t u H Hw He Hs Hn E1 E2 x y C.
  pose proof (bloat2_spec w e s n (st i) Hw He Hs Hn (reachable_ok st i H)) as K1. rewrite E1 in K1. destruct K1 as [Ot [_ [_ K1]]].
  pose proof (shrink2_spec w e s n t Hw He Hs Hn Ot) as K2. rewrite E2 in K2. destruct K2 as [_ [_ [_ K2]]].
  apply K2. intros a b Ha Hb. apply K1. exists x, y. split; [exact C|]. lia.
Qed.
Print Assumptions C10_bloat2_shrink2.
Example C10_bloat2_shrink2_demo : exists t u, ps_bloat2 1 2 1 2 (demo10_store 0%nat) = Ok t /\ ps_shrink2 1 2 1 2 t = Ok u /\
  ps_count u 4 4 = 1 /\ ps_count u 0 0 = 1 /\ ps_count u (-1) 0 = 0.
Proof. eexists _, _. split; [vm_compute; reflexivity|]. split; [vm_compute; reflexivity|]. vm_compute. repeat split. Qed.

(* shrinking always lies in the coordinate range, but shrink2 overflows on a set
   that reaches up to the largest coordinate *)
Theorem C10_shrink2_total_refuted : exists st i, reachable st /\ ps_shrink2 1 1 1 1 (st i) = Overflow.
Proof. exists demo10_store, 1%nat. split; [exact demo10_reachable|vm_compute; reflexivity]. Qed.
Print Assumptions C10_shrink2_total_refuted.
