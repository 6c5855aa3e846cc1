(* Lemmas about the vectors of the Voronoi diagram model. *)
From Verif Require Import Base Units Outcome VorSpec VorModel VDModel VDSpec.
Local Open Scope nat_scope.

Lemma length_upd {A : Type} (f : A -> A) l : forall i, length (upd i f l) = length l.
Proof. induction l as [|a l IH]; intros [|i]; cbn [upd length]; congruence. Qed.
Lemma nth_upd {A : Type} (f : A -> A) l : forall i j, nth_error (upd i f l) j = if i =? j then option_map f (nth_error l j) else nth_error l j.
Proof.
  induction l as [|a l IH]; intros i j.
  - destruct i, j; cbn; try reflexivity; destruct (_ =? _); reflexivity.
  - destruct i as [|i], j as [|j]; cbn; try reflexivity. apply IH.
Qed.
Lemma assign_ok {A : Type} i (f : A -> A) l : i < length l -> assign (Some i) f l = Ok (upd i f l).
Proof. intros H. unfold assign. destruct (Nat.ltb_spec i (length l)); [reflexivity|lia]. Qed.
Lemma deref_ok {A : Type} i (l : list A) a : nth_error l i = Some a -> deref (Some i) l = Ok a.
Proof. intros H. unfold deref. rewrite H. reflexivity. Qed.
Lemma nth_some {A : Type} i (l : list A) : i < length l -> exists a, nth_error l i = Some a.
Proof. intros H. destruct (nth_error l i) as [a|] eqn:E; [exists a; reflexivity|]. apply nth_error_None in E. lia. Qed.

Lemma fld_upd {B : Type} (f : dart -> option B) g E i j :
  fld f (upd i g E) j = if (i =? j) && (j <? length E) then fld (fun d => f (g d)) E j else fld f E j.
Proof.
  unfold fld. rewrite nth_upd. destruct (Nat.eqb_spec i j) as [->|N]; [|reflexivity]. cbn [andb].
  destruct (nth_error E j) as [d|] eqn:H.
  - assert (j < length E) by (apply nth_error_Some; congruence). destruct (Nat.ltb_spec j (length E)); [reflexivity|lia].
  - cbn [option_map]. destruct (j <? length E); reflexivity.
Qed.
Lemma fld_none {B : Type} (f : dart -> option B) E i : length E <= i -> fld f E i = None.
Proof. intros H. unfold fld. apply nth_error_None in H. rewrite H. reflexivity. Qed.
Lemma fld_lt {B : Type} (f : dart -> option B) E i b : fld f E i = Some b -> i < length E.
Proof. unfold fld. intros H. destruct (nth_error E i) eqn:G; [|discriminate]. apply nth_error_Some. congruence. Qed.
Lemma fld_const {B : Type} (v : option B) E j : j < length E -> fld (fun _ => v) E j = v.
Proof. intros H. unfold fld. apply nth_some in H. destruct H as [a ->]. reflexivity. Qed.
Lemma fld_app {B : Type} (f : dart -> option B) E F i : fld f (E ++ F) i = if i <? length E then fld f E i else fld f F (i - length E).
Proof.
  unfold fld. destruct (Nat.ltb_spec i (length E)); [rewrite nth_error_app1 by assumption|rewrite nth_error_app2 by assumption]; reflexivity.
Qed.
Lemma fld_firstn {B : Type} (f : dart -> option B) E n i : fld f (firstn n E) i = if i <? n then fld f E i else None.
Proof.
  unfold fld. destruct (Nat.ltb_spec i n) as [H|H].
  - replace (nth_error (firstn n E) i) with (nth_error E i); [reflexivity|]. clear f. revert n i H.
    induction E as [|a E IH]; intros [|n] [|i] H; cbn; try lia; try reflexivity. apply IH. lia.
  - replace (nth_error (firstn n E) i) with (@None dart); [reflexivity|]. symmetry. apply nth_error_None. rewrite firstn_length. lia.
Qed.

(* getters after setters *)
Ltac fld_solve := intros; unfold cl, vx, tn, nx, pv; rewrite fld_upd;
  repeat match goal with |- context [?a =? ?b] => destruct (Nat.eqb_spec a b) end; subst; cbn [andb]; try reflexivity;
  repeat match goal with |- context [?a <? ?b] => destruct (Nat.ltb_spec a b) end; try reflexivity; try lia; cbn; try (apply fld_const; assumption).
Lemma cl_set_cell v E i j : i < length E -> cl (upd i (set_cell v) E) j = if i =? j then v else cl E j. Proof. fld_solve. Qed.
Lemma cl_set_vertex v E i j : cl (upd i (set_vertex v) E) j = cl E j. Proof. fld_solve. Qed.
Lemma cl_set_twin v E i j : cl (upd i (set_twin v) E) j = cl E j. Proof. fld_solve. Qed.
Lemma cl_set_next v E i j : cl (upd i (set_next v) E) j = cl E j. Proof. fld_solve. Qed.
Lemma cl_set_prev v E i j : cl (upd i (set_prev v) E) j = cl E j. Proof. fld_solve. Qed.
Lemma vx_set_cell v E i j : vx (upd i (set_cell v) E) j = vx E j. Proof. fld_solve. Qed.
Lemma vx_set_vertex v E i j : i < length E -> vx (upd i (set_vertex v) E) j = if i =? j then v else vx E j. Proof. fld_solve. Qed.
Lemma vx_set_twin v E i j : vx (upd i (set_twin v) E) j = vx E j. Proof. fld_solve. Qed.
Lemma vx_set_next v E i j : vx (upd i (set_next v) E) j = vx E j. Proof. fld_solve. Qed.
Lemma vx_set_prev v E i j : vx (upd i (set_prev v) E) j = vx E j. Proof. fld_solve. Qed.
Lemma tn_set_cell v E i j : tn (upd i (set_cell v) E) j = tn E j. Proof. fld_solve. Qed.
Lemma tn_set_vertex v E i j : tn (upd i (set_vertex v) E) j = tn E j. Proof. fld_solve. Qed.
Lemma tn_set_twin v E i j : i < length E -> tn (upd i (set_twin v) E) j = if i =? j then v else tn E j. Proof. fld_solve. Qed.
Lemma tn_set_next v E i j : tn (upd i (set_next v) E) j = tn E j. Proof. fld_solve. Qed.
Lemma tn_set_prev v E i j : tn (upd i (set_prev v) E) j = tn E j. Proof. fld_solve. Qed.
Lemma nx_set_cell v E i j : nx (upd i (set_cell v) E) j = nx E j. Proof. fld_solve. Qed.
Lemma nx_set_vertex v E i j : nx (upd i (set_vertex v) E) j = nx E j. Proof. fld_solve. Qed.
Lemma nx_set_twin v E i j : nx (upd i (set_twin v) E) j = nx E j. Proof. fld_solve. Qed.
Lemma nx_set_next v E i j : i < length E -> nx (upd i (set_next v) E) j = if i =? j then v else nx E j. Proof. fld_solve. Qed.
Lemma nx_set_prev v E i j : nx (upd i (set_prev v) E) j = nx E j. Proof. fld_solve. Qed.
Lemma pv_set_cell v E i j : pv (upd i (set_cell v) E) j = pv E j. Proof. fld_solve. Qed.
Lemma pv_set_vertex v E i j : pv (upd i (set_vertex v) E) j = pv E j. Proof. fld_solve. Qed.
Lemma pv_set_twin v E i j : pv (upd i (set_twin v) E) j = pv E j. Proof. fld_solve. Qed.
Lemma pv_set_next v E i j : pv (upd i (set_next v) E) j = pv E j. Proof. fld_solve. Qed.
Lemma pv_set_prev v E i j : i < length E -> pv (upd i (set_prev v) E) j = if i =? j then v else pv E j. Proof. fld_solve. Qed.
(* a whole edge is overwritten *)
Lemma fld_set_dart {B : Type} (f : dart -> option B) d E i j : i < length E -> fld f (upd i (fun _ => d) E) j = if i =? j then f d else fld f E j.
Proof. fld_solve. Qed.

Create HintDb vd.
#[export] Hint Rewrite @length_upd cl_set_vertex cl_set_twin cl_set_next cl_set_prev vx_set_cell vx_set_twin vx_set_next vx_set_prev
  tn_set_cell tn_set_vertex tn_set_next tn_set_prev nx_set_cell nx_set_vertex nx_set_twin nx_set_prev
  pv_set_cell pv_set_vertex pv_set_twin pv_set_next : vd.
Ltac lt_len := autorewrite with vd; rewrite ?app_length; cbn [length]; lia.
#[export] Hint Rewrite cl_set_cell vx_set_vertex tn_set_twin nx_set_next pv_set_prev using lt_len : vd.

Lemma p_get (f : dart -> option nat) E i : i < length E -> (try d <- deref (Some i) E; Ok (f d)) = Ok (fld f E i).
Proof. intros H. apply nth_some in H. destruct H as [a H]. rewrite (deref_ok _ _ _ H). unfold fld. rewrite H. reflexivity. Qed.
Lemma p_twin_ok E i : i < length E -> p_twin E (Some i) = Ok (tn E i). Proof. apply p_get. Qed.
Lemma p_next_ok E i : i < length E -> p_next E (Some i) = Ok (nx E i). Proof. apply p_get. Qed.
Lemma p_prev_ok E i : i < length E -> p_prev E (Some i) = Ok (pv E i). Proof. apply p_get. Qed.
Lemma p_vertex_ok E i : i < length E -> p_vertex E (Some i) = Ok (vx E i). Proof. apply p_get. Qed.

Lemma nx_lt E i j : nx E i = Some j -> i < length E. Proof. apply fld_lt. Qed.
Lemma pv_lt E i j : pv E i = Some j -> i < length E. Proof. apply fld_lt. Qed.
Lemma vx_lt E i j : vx E i = Some j -> i < length E. Proof. apply fld_lt. Qed.
Lemma tn_lt E i j : tn E i = Some j -> i < length E. Proof. apply fld_lt. Qed.
Lemma cl_lt E i j : cl E i = Some j -> i < length E. Proof. apply fld_lt. Qed.

(* twins are neighbours in the vector *)
Definition tw (i : nat) : nat := if Nat.even i then S i else pred i.
Lemma tw_even k : tw (2 * k) = 2 * k + 1.
Proof. unfold tw. rewrite Nat.even_mul. cbn [Nat.even orb]. lia. Qed.
Lemma tw_odd k : tw (2 * k + 1) = 2 * k.
Proof. unfold tw. rewrite Nat.even_add, Nat.even_mul. cbn [Nat.even orb eqb Bool.eqb]. lia. Qed.
Lemma even_or i : exists k, i = 2 * k \/ i = 2 * k + 1.
Proof. exists (Nat.div2 i). destruct (Nat.even i) eqn:E; [apply Nat.even_spec, Nat.Even_double in E|apply Nat.odd_spec in E || (assert (O : Nat.odd i = true) by (unfold Nat.odd; rewrite E; reflexivity); apply Nat.odd_spec, Nat.Odd_double in O)]; unfold Nat.double in *; lia. Qed.
Lemma tw_tw i : tw (tw i) = i.
Proof. destruct (even_or i) as [k [->| ->]]; rewrite ?tw_even, ?tw_odd, ?tw_even; reflexivity. Qed.
Lemma tw_neq i : tw i <> i.
Proof. destruct (even_or i) as [k [->| ->]]; rewrite ?tw_even, ?tw_odd; lia. Qed.
Lemma tw_inj i j : tw i = tw j -> i = j.
Proof. intros H. rewrite <- (tw_tw i), H. apply tw_tw. Qed.
Lemma tw_lt i n : Nat.even n = true -> i < n -> tw i < n.
Proof.
  intros E H. apply Nat.even_spec in E. destruct E as [m ->]. destruct (even_or i) as [k [->| ->]]; rewrite ?tw_even, ?tw_odd; lia.
Qed.
Lemma tw_ge i n : Nat.even n = true -> n <= i -> n <= tw i.
Proof.
  intros E H. apply Nat.even_spec in E. destruct E as [m ->]. destruct (even_or i) as [k [->| ->]]; rewrite ?tw_even, ?tw_odd; lia.
Qed.
