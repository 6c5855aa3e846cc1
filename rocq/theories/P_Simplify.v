(* C75: the simplification of a polygon. *)
From Coq Require Import QArith ZArith List Bool Lia.
From Verif Require Import Base Units Outcome Poly90Model SimplifySpec SimplifyModel SimplifyProofs.
From Coq Require Import Lqa.
Import ListNotations.
Open Scope Q_scope.

(* The function returns the number of vertices that are gone. Its result is empty or
   has three vertices or more, taken from the source in their order around it; a closed
   source (the first vertex is repeated) gives a closed result. The vertices went one
   after the other, each within the threshold of the line through its neighbours of
   that time, or with equal neighbours; see [steps] for what counts as a neighbour. *)
Theorem C75_result_partial : forall len src, src <> [] -> (Z.of_nat (length src) < 2 ^ 64)%Z ->
  exists dst n, simplify len src = Ok (dst, n) /\ n = (Z.of_nat (length src) - Z.of_nat (length dst))%Z /\
  (dst = [] \/
   exists p d h, dst = p :: d ++ (if closed_list src then [p] else []) /\ (2 <= length d)%nat /\
     (exists r, rotation src r /\ subseq (p :: d) r) /\ steps len src ((p :: d) :: h)).
Proof.
  intros len src N B. unfold simplify. destruct src as [|s0 src]; [contradiction|].
  destruct (simplify_loop_ok len (s0 :: src) (closed_list (s0 :: src)) (S (length (s0 :: src))) (s0 :: src) 0) as [r [n [E H]]]; [lia|intros _; exists []; apply steps_start|].
  rewrite Z.add_0_l in E. rewrite E. exists r, n. split; [reflexivity|]. rewrite Z.add_0_l in H.
  destruct H as [[-> ->]|[p [d [h [H1 [H2 [H3 [H4 H5]]]]]]]]; [split; [cbn [length]; lia|left; reflexivity]|].
  pose proof (sub_rot_len _ _ H3) as LE. destruct (closed_list (s0 :: src)) eqn:C; apply pair_equal_spec in H5; destruct H5 as [-> ->].
  - assert (L : (length (p :: d) < length (s0 :: src))%nat) by (apply (closed_shrinks len s0 src (p :: d) C); [cbn in LE; lia|exact H3|exact H4]).
    split.
    + rewrite Z.mod_small by lia. rewrite app_length. cbn [length] in *. lia.
    + right. exists p, d, h. split; [reflexivity|]. split; [exact H2|]. split; [exact H3|exact H1].
  - split; [reflexivity|]. right. exists p, d, h. rewrite app_nil_r. split; [reflexivity|]. split; [exact H2|]. split; [exact H3|exact H1].
Qed.

(* A vertex b of the result, between a and c, has two different neighbours and is
   farther than the threshold from one of them. Where a and c have the same y or are
   on a line of slope one, b is farther than the threshold from the segment from a
   to c: this is what the comment of the function promises everywhere. *)
Theorem C75_remaining_partial : forall len src p d n,
  simplify len src = Ok (p :: d ++ (if closed_list src then [p] else []), n) -> forall a b c, neighbours (p :: d) a b c ->
  a <> c /\ (len * len < sqr_dist_at a b c 0 \/ len * len < sqr_dist_at a b c 1) /\
  (py a = py c \/ (py c - py a = px c - px a)%Z -> ~ near_segment len a b c).
Proof.
  intros len src p d n E a b c NB. unfold simplify in E. destruct src as [|s0 src]; [discriminate|].
  destruct (simplify_loop_ok len (s0 :: src) (closed_list (s0 :: src)) (S (length (s0 :: src))) (s0 :: src) 0) as [r [n' [E' H]]]; [lia|intros _; exists []; apply steps_start|].
  rewrite Z.add_0_l in E'. rewrite E' in E. destruct (closed_list (s0 :: src)) eqn:C;
    injection E as E1 E2; subst r n'.
  all: destruct H as [[H _]|[p' [d' [h [H1 [H2 [H3 [H4 H5]]]]]]]]; [discriminate|].
  all: assert (K : keeps len a b c = true); [apply H4; injection H5 as E1 E2 E3; subst p'|].
  1: apply app_inj_tail in E2; destruct E2 as [<- _]; exact NB.
  2: rewrite app_nil_r in E2; subst d'; exact NB.
  all: pose proof (kept_far _ _ _ _ K) as [NE F]; split; [exact NE|]; split; [exact F|]; intros SL NS.
  all: apply (straight len a b c NE) in NS; [congruence|]; apply slope; exact SL.
Qed.
(* For such neighbours the test is exactly the one of the comment. *)
Theorem C75_test : forall len a b c, a <> c -> py a = py c \/ (py c - py a = px c - px a)%Z ->
  keeps len a b c = false <-> near_segment len a b c.
Proof.
  intros len a b c NE SL. apply straight; [exact NE|]. apply slope; exact SL.
Qed.

(* The vertices of a list have to be there. *)
Theorem C75_empty_undefined : forall len, simplify len [] = Undefined.
Proof. reflexivity. Qed.

(* The comment of the function is wrong in both directions.
   A vertex in the middle of a straight edge stays, whatever the threshold below the
   half of the edge: *)
Theorem C75_on_segment_kept_refuted : exists src a b c,
  simplify 1 src = Ok (src, 0%Z) /\ neighbours src a b c /\ sqr_dist_at a b c (1 # 2) == 0.
Proof.
  exists [mk_pt 0 0; mk_pt 50 (-100); mk_pt 100 (-200); mk_pt 200 0], (mk_pt 0 0), (mk_pt 50 (-100)), (mk_pt 100 (-200)).
  split; [vm_compute; reflexivity|]. split; [|vm_compute; reflexivity].
  eexists. split; [apply rotation_refl|reflexivity].
Qed.
(* A spike goes, although its tip is far from the segment: *)
Theorem C75_spike_removed_refuted : exists src dst n a b c,
  simplify 1 src = Ok (dst, n) /\ neighbours src a b c /\ ~ In b dst /\ ~ near_segment 30 a b c.
Proof.
  exists [mk_pt 0 0; mk_pt 20 60; mk_pt 10 30; mk_pt 0 100; mk_pt (-50) 50],
    [mk_pt 10 30; mk_pt 0 100; mk_pt (-50) 50; mk_pt 0 0], 1%Z, (mk_pt 0 0), (mk_pt 20 60), (mk_pt 10 30).
  split; [vm_compute; reflexivity|]. split; [eexists; split; [apply rotation_refl|reflexivity]|]. split.
  - cbn. intros H. repeat (destruct H as [H|H]; [discriminate|]). exact H.
  - intros [t [R K]]. unfold sqr_dist_at, qx, qy in K. cbn [px py] in K. unfold inject_Z in K. nra.
Qed.
(* The corner at which the list begins goes together with a vertex close to it: each is
   removed because it is close to the other. The corner is four hundred times the
   threshold away from the line that replaces it. *)
Theorem C75_corner_removed_refuted : exists src dst n a b c e m,
  simplify 1 src = Ok (dst, n) /\ rotation src (a :: b :: c :: e :: m) /\ dst = e :: m ++ [a] /\
  ~ near_line 400 a b e /\ ~ near_line 400 a c e.
Proof.
  exists [mk_pt 0 0; mk_pt 1 0; mk_pt 1000 0; mk_pt 0 2000; mk_pt (-1000) 1000],
    [mk_pt 1000 0; mk_pt 0 2000; mk_pt (-1000) 1000], 2%Z, (mk_pt (-1000) 1000), (mk_pt 0 0), (mk_pt 1 0), (mk_pt 1000 0), [mk_pt 0 2000].
  split; [vm_compute; reflexivity|]. split; [exists [mk_pt 0 0; mk_pt 1 0; mk_pt 1000 0; mk_pt 0 2000], [mk_pt (-1000) 1000]; split; reflexivity|].
  split; [reflexivity|]. split.
  - intros [t K]. unfold sqr_dist_at, qx, qy in K. cbn [px py] in K. unfold inject_Z in K. pose proof (qsq (5 * t - 3)). lra.
  - intros [t K]. unfold sqr_dist_at, qx, qy in K. cbn [px py] in K. unfold inject_Z in K. pose proof (qsq (5000 * t - 3002)). lra.
Qed.

(* a closed square with a vertex in a side and one close to a corner *)
Example C75_example : simplify 1 [mk_pt 0 0; mk_pt 50 0; mk_pt 100 0; mk_pt 100 100; mk_pt 1 100; mk_pt 0 100; mk_pt 0 0] =
  Ok ([mk_pt 100 0; mk_pt 100 100; mk_pt 0 100; mk_pt 0 0; mk_pt 100 0], 2%Z).
Proof. vm_compute. reflexivity. Qed.
Example C75_example_remaining : neighbours [mk_pt 100 0; mk_pt 100 100; mk_pt 0 100; mk_pt 0 0] (mk_pt 100 0) (mk_pt 100 100) (mk_pt 0 100).
Proof. exists [mk_pt 0 100; mk_pt 0 0]. split; [apply rotation_refl|reflexivity]. Qed.
Example C75_example_test : near_segment 1 (mk_pt 0 0) (mk_pt 50 1) (mk_pt 100 0) /\ ~ near_segment 1 (mk_pt 0 0) (mk_pt 50 2) (mk_pt 100 0).
Proof.
  split; [exists (1 # 2); split; [lra|vm_compute; discriminate]|]. intros [t [R K]].
  unfold sqr_dist_at, qx, qy in K. cbn [px py] in K. unfold inject_Z in K. pose proof (qsq (100 * t - 50)). lra.
Qed.

Print Assumptions C75_result_partial.
Print Assumptions C75_remaining_partial.
Print Assumptions C75_test.
Print Assumptions C75_empty_undefined.
Print Assumptions C75_on_segment_kept_refuted.
Print Assumptions C75_spike_removed_refuted.
Print Assumptions C75_corner_removed_refuted.
