(* Specification of the simplification of polygons. *)
From Coq Require Import QArith ZArith List.
From Verif Require Import Base Units Poly90Model.
Import ListNotations.
Open Scope Q_scope.

(* coordinates as rational numbers *)
Definition qx (p : point) : Q := inject_Z (px p).
Definition qy (p : point) : Q := inject_Z (py p).
(* the square of the distance from b to the place a + t (c - a) *)
Definition sqr_dist_at (a b c : point) (t : Q) : Q :=
  (qx a + t * (qx c - qx a) - qx b) * (qx a + t * (qx c - qx a) - qx b) +
  (qy a + t * (qy c - qy a) - qy b) * (qy a + t * (qy c - qy a) - qy b).
(* b is within [len] of the segment, of the line from a to c *)
Definition near_segment (len : Q) (a b c : point) : Prop := exists t, 0 <= t <= 1 /\ sqr_dist_at a b c t <= len * len.
Definition near_line (len : Q) (a b c : point) : Prop := exists t, sqr_dist_at a b c t <= len * len.
(* the same polygon, started at another vertex *)
Definition rotation {A : Type} (l r : list A) : Prop := exists l1 l2, l = l1 ++ l2 /\ r = l2 ++ l1.
Inductive subseq {A : Type} : list A -> list A -> Prop :=
| subseq_nil : forall l, subseq [] l
| subseq_take : forall a l l', subseq l l' -> subseq (a :: l) (a :: l')
| subseq_skip : forall a l l', subseq l l' -> subseq l (a :: l').
(* b with its neighbours on the polygon *)
Definition neighbours (l : list point) (a b c : point) : Prop := exists m, rotation l (a :: b :: m) /\ c = hd a m.
(* the last vertex is the first one again *)
Definition closed_list (l : list point) : bool :=
  match l with
  | [] => false
  | p :: _ => (px p =? px (last l p))%Z && (py p =? py (last l p))%Z
  end.
(* c comes after b on the polygon *)
Definition follows (l : list point) (b c : point) : Prop := exists m, rotation l (b :: m) /\ c = hd b m.
(* polygons got from [src], the newest first: each is the one before started at
   another vertex, or the one before without a vertex b. Then a is the vertex before b,
   c is or was, in one of the polygons so far, the vertex after b, and a is c or b is
   within [len] of the line from a to c. *)
Inductive steps (len : Q) (src : list point) : list (list point) -> Prop :=
| steps_start : steps len src [src]
| steps_turn : forall l l' h, steps len src (l :: h) -> rotation l l' -> steps len src (l' :: l :: h)
| steps_remove : forall a b c m h l0, steps len src ((a :: b :: m) :: h) ->
    In l0 ((a :: b :: m) :: h) -> follows l0 b c -> a = c \/ near_line len a b c ->
    steps len src ((a :: m) :: (a :: b :: m) :: h).
