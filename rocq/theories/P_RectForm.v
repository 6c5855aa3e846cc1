(* C05: decomposition of Manhattan polygon sets into rectangles.
   [decomposes o P l] (RectFormSpec): the rectangles of l are non-empty, pairwise
   disjoint, cover exactly P, and are exactly the maximal slabs of P along o,
   each once. *)
From Verif Require Import Base Scan90Spec BoolOpModel Set90Spec Set90Model Set90Proofs Set90Cor RectFormSpec RectFormModel RectFormCor.

Definition demo5 : list op :=
  [ONew 0 Vertical; OInsertRect 0 (mk_rect 0 5 0 5) false; OInsertRect 0 (mk_rect 3 8 5 9) false;
   OInsertRect 0 (mk_rect 1 3 1 3) true; OInsertRect 0 (mk_rect 8 12 1 5) false].
Lemma demo5_ok : Forall op_ok demo5.
Proof.
  unfold demo5. repeat (constructor; [cbn [op_ok]; unfold rect_ok, is_int, INT_MIN, INT_MAX; cbn [xl xh yl yh]; try exact I; lia|]).
  constructor.
Qed.
Definition demo5_store : store := match run start demo5 with Ok (st, _) => st | _ => start end.
Lemma demo5_reachable : reachable demo5_store.
Proof. exists demo5, []. split; [exact demo5_ok|reflexivity]. Qed.

(* the member get(), sliced along the scan orientation of the set *)
Theorem C05_get_rectangles : forall st i, reachable st -> exists rs s, ps_get_rectangles (st i) = Some (rs, s) /\
  decomposes (ps_orient (st i)) (ps_covers (st i)) rs /\
  ps_orient s = ps_orient (st i) /\ (forall x y, ps_covers s x y <-> ps_covers (st i) x y).
Proof. exact get_rectangles_cor. Qed.
Print Assumptions C05_get_rectangles.

(* get_rectangles with an explicit slicing orientation *)
Theorem C05_get_rectangles_sliced : forall st i o, reachable st ->
  exists rs s, ps_get_rectangles_sliced o (st i) = Ok (rs, s) /\
  decomposes o (ps_covers (st i)) rs /\
  ps_orient s = ps_orient (st i) /\ (forall x y, ps_covers s x y <-> ps_covers (st i) x y).
Proof. exact get_rectangles_sliced_cor. Qed.
Print Assumptions C05_get_rectangles_sliced.

(* the free function get_rectangles(output, polygon_set) slices vertically *)
Theorem C05_free_get_rectangles : forall st i, reachable st -> exists rs s, free_get_rectangles (st i) = Some (rs, s) /\
  decomposes Vertical (ps_covers (st i)) rs /\
  ps_orient s = ps_orient (st i) /\ (forall x y, ps_covers s x y <-> ps_covers (st i) x y).
Proof. exact free_get_rectangles_cor. Qed.
Print Assumptions C05_free_get_rectangles.

(* inserting the rectangles into a new set gives a set that compares equal *)
Theorem C05_rectangles_roundtrip : forall st i o rs s, reachable st ->
  ps_get_rectangles_sliced o (st i) = Ok (rs, s) ->
  exists t1 t2, ps_eq (fold_left (fun s r => ps_insert_rect s r false) rs (ps_new (ps_orient (st i)))) (st i) = Some (true, (t1, t2)).
Proof. exact roundtrip_cor. Qed.
Print Assumptions C05_rectangles_roundtrip.

Example C05_demo_vertical : exists s, ps_get_rectangles (demo5_store 0%nat) = Some
  ([mk_rect 0 1 0 5; mk_rect 1 3 0 1; mk_rect 1 3 3 5; mk_rect 3 5 0 9; mk_rect 5 8 5 9; mk_rect 8 12 1 5], s) .
Proof. eexists. vm_compute. reflexivity. Qed.
Example C05_demo_horizontal : exists rs s, ps_get_rectangles_sliced Horizontal (demo5_store 0%nat) = Ok (rs, s) /\
  length rs = 6%nat.
Proof. eexists _, _. split; [vm_compute; reflexivity|reflexivity]. Qed.
