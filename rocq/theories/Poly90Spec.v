(* Specification of Manhattan polygons: vertex cycles, winding numbers, area. *)
From Verif Require Import Base Units Scan90Spec.

(* the edges of the closed cycle through the vertices *)
Definition cyc_edges (l : list point) : list (point * point) :=
  match l with [] => [] | p :: t => combine l (t ++ [p]) end.

Definition zsum {A : Type} (f : A -> Z) (l : list A) : Z := fold_right (fun a s => f a + s) 0 l.

(* The winding number of a cycle of axis-parallel edges around the cell (x,y):
   the horizontal edges below the centre of the cell that cross its column from
   left to right, minus those that cross from right to left. *)
Definition crossing (x y : Z) (e : point * point) : Z :=
  let (a, b) := e in
  if (py a =? py b) && (py a <=? y) then
    if (px a <=? x) && (x <? px b) then 1
    else if (px b <=? x) && (x <? px a) then -1
    else 0
  else 0.
Definition winding_number (l : list point) (x y : Z) : Z := zsum (crossing x y) (cyc_edges l).

(* twice the signed area (positive: counterclockwise), shoelace formula *)
Definition shoelace2 (l : list point) : Z :=
  zsum (fun e : point * point => px (fst e) * py (snd e) - px (snd e) * py (fst e)) (cyc_edges l).

(* axis-parallel edges *)
Definition axis_edge (e : point * point) : Prop := px (fst e) = px (snd e) \/ py (fst e) = py (snd e).
Definition rectilinear (l : list point) : Prop := Forall axis_edge (cyc_edges l).
(* the vertical edges to the left of the cell that cross its row downwards minus
   those that cross upwards *)
Definition crossing_left (x y : Z) (e : point * point) : Z :=
  let (a, b) := e in
  if (px a =? px b) && (px a <=? x) then
    if (py b <=? y) && (y <? py a) then 1
    else if (py a <=? y) && (y <? py b) then -1
    else 0
  else 0.
(* translation *)
Definition shift (dx dy : Z) (p : point) : point := mk_pt (px p + dx) (py p + dy).
(* the box [x, x+n] x [y, y+m] and sums over its cells *)
Definition zrange (a : Z) (n : nat) : list Z := map (fun k => a + Z.of_nat k) (seq 0 n).
Definition box_sum (x : Z) (n : nat) (y : Z) (m : nat) (f : Z -> Z -> Z) : Z :=
  zsum (fun i => zsum (fun j => f i j) (zrange y m)) (zrange x n).
Definition inside_box (x : Z) (n : nat) (y : Z) (m : nat) (p : point) : Prop :=
  x <= px p <= x + Z.of_nat n /\ y <= py p <= y + Z.of_nat m.

(* The coordinate list x0, y0, x1, y1, ... of a polygon_90 stands for the cycle
   (x0,y0), (x1,y0), (x1,y1), (x2,y1), ..., (x0,yn). *)
Fixpoint ring_points_from (fx : Z) (l : list Z) : list point :=
  match l with
  | x :: y :: t =>
      match t with
      | [] => [mk_pt x y; mk_pt fx y]
      | x' :: _ => mk_pt x y :: mk_pt x' y :: ring_points_from fx t
      end
  | _ => []
  end.
Definition ring_points (l : list Z) : list point :=
  match l with [] => [] | fx :: _ => ring_points_from fx l end.

(* A ring that may be inserted into a set. Rings with fewer than four
   coordinates are ignored by the library. The last two edges have positive
   length, and of two neighbouring edges one has positive length. The first
   coordinate or the first two may be repeated at the end to close the ring. *)
Definition ring_closes (l : list Z) : Prop :=
  exists x0 y0 m xn yn, l = x0 :: y0 :: m ++ [xn; yn] /\ xn <> x0 /\ yn <> y0.
Definition ring_moves (l : list Z) : Prop :=
  forall j a b, nth_error l j = Some a -> nth_error l (j + 1) = Some b ->
    nth_error l (j + 2) = Some a -> nth_error l (j + 3) <> Some b.
Definition ring_proper (l : list Z) : Prop :=
  Nat.Even (length l) /\ ring_closes l /\ ring_moves l.
Definition ring_ok (l : list Z) : Prop :=
  Forall is_int l /\
  ((length l < 4)%nat \/ ring_proper l \/
   exists x0 y0 m, ring_proper (x0 :: y0 :: m) /\
     (l = (x0 :: y0 :: m) ++ [x0] \/ l = (x0 :: y0 :: m) ++ [x0; y0])).

(* the winding number of a ring, counted positively if the ring is
   counterclockwise, and negated otherwise *)
Definition ring_count (l : list Z) (x y : Z) : Z :=
  if 0 <? shoelace2 (ring_points l) then winding_number (ring_points l) x y
  else - winding_number (ring_points l) x y.

(* all coordinates lie between -B and B, and area sums of so many edges fit *)
Definition ring_fits (B : Z) (l : list Z) : Prop :=
  Forall (fun c => - B <= c <= B) l /\ 0 <= B /\ (Z.of_nat (length l) + 2) * (8 * (B * B)) < 2 ^ 63.

(* a polygon with holes *)
Record poly90 : Type := mk_poly90 { p_outer : list Z; p_holes : list (list Z) }.
Definition poly_ok (p : poly90) : Prop := ring_ok (p_outer p) /\ Forall ring_ok (p_holes p).
Definition poly_count (p : poly90) (x y : Z) : Z :=
  ring_count (p_outer p) x y - zsum (fun h => ring_count h x y) (p_holes p).

Definition poly_fits (B : Z) (p : poly90) : Prop := ring_fits B (p_outer p) /\ Forall (ring_fits B) (p_holes p).
(* the same closed curve, up to the start vertex *)
Definition rotation (l m : list point) : Prop := exists a b, l = a ++ b /\ m = b ++ a.
