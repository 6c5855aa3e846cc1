(* Common imports and the outcome monad used by the model.

   [option A] is the type of outcomes of a piece of C++: [Some a] is a normal
   result, [None] is undefined behaviour (dereference of an invalid iterator,
   out-of-bounds access, signed overflow, read of uninitialised storage) or
   exhaustion of the fuel of a loop. Theorems about results are stated with
   [= Some _], so that they also claim the absence of [None]. *)
From Coq Require Export ZArith List Bool Lia.
From Coq Require Export ZifyBool.
Export ListNotations.
Global Open Scope Z_scope.

Definition bind {A B : Type} (o : option A) (f : A -> option B) : option B :=
  match o with Some a => f a | None => None end.

Notation "'do' x <- e1 ; e2" := (bind e1 (fun x => e2))
  (at level 200, x name, e1 at level 100, e2 at level 200).
Notation "'do' ' p <- e1 ; e2" := (bind e1 (fun p => e2))
  (at level 200, p strict pattern, e1 at level 100, e2 at level 200).

Lemma bind_Some {A B : Type} (o : option A) (f : A -> option B) (b : B) :
  bind o f = Some b <-> exists a, o = Some a /\ f a = Some b.
Proof.
  destruct o as [a|]; cbn [bind]; split; intros H.
  - exists a; split; [reflexivity | exact H].
  - destruct H as [a' [H1 H2]]. injection H1 as H1. rewrite H1. exact H2.
  - discriminate H.
  - destruct H as [a' [H1 _]]. discriminate H1.
Qed.
