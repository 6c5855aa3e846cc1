(* Specification of general polygons: closed vertex cycles over the integers. *)
From Verif Require Import Base Units Scan90Spec Poly90Spec GeoSpec.

(* a polygon with holes *)
Record gpoly : Type := mk_gpoly { g_outer : list point; g_holes : list (list point) }.

(* the closed curve of a vertex cycle *)
Definition on_edge (e : point * point) (p : point) : Prop := on_seg (mk_seg (fst e) (snd e)) (qpt p).
Definition on_curve (l : list point) (p : point) : Prop := exists e, In e (cyc_edges l) /\ on_edge e p.

(* The edge crosses the vertical line through p and lies strictly below p there.
   An edge owns the end point with the lesser x, not the other one. *)
Definition below (p : point) (e : point * point) : bool :=
  let (a, b) := e in
  ((px a <=? px p) && (px p <? px b) && (0 <? side (mk_seg a b) p)) ||
  ((px b <=? px p) && (px p <? px a) && (0 <? side (mk_seg b a) p)).
Definition above (p : point) (e : point * point) : bool :=
  let (a, b) := e in
  ((px a <=? px p) && (px p <? px b) && (side (mk_seg a b) p <? 0)) ||
  ((px b <=? px p) && (px p <? px a) && (side (mk_seg b a) p <? 0)).
Definition count_if {A : Type} (f : A -> bool) (l : list A) : Z := zsum (fun a => if f a then 1 else 0) l.
(* the even-odd rule *)
Definition edges_below (l : list point) (p : point) : Z := count_if (below p) (cyc_edges l).
Definition edges_above (l : list point) (p : point) : Z := count_if (above p) (cyc_edges l).
Definition inside (l : list point) (p : point) : Prop := Z.odd (edges_below l p) = true.

(* cycles with at least two different vertices, and without edges of length zero *)
Definition two_points (l : list point) : Prop := exists a b, In a l /\ In b l /\ a <> b.
Definition no_zero_edge (l : list point) : Prop := Forall (fun e : point * point => fst e <> snd e) (cyc_edges l).

(* horizontal, vertical and diagonal edges *)
Definition edge_45 (e : point * point) : Prop :=
  axis_edge e \/ Z.abs (px (snd e) - px (fst e)) = Z.abs (py (snd e) - py (fst e)).
Definition cycle_45 (l : list point) : Prop := Forall edge_45 (cyc_edges l).
Definition gpoly_45 (g : gpoly) : Prop := cycle_45 (g_outer g) /\ Forall cycle_45 (g_holes g).

(* the least rectangle around the vertices *)
Definition box_of (l : list point) (r : rect) : Prop :=
  (forall p, In p l -> in_rectq true r (qpt p)) /\
  (forall s, (forall p, In p l -> in_rectq true s (qpt p)) -> forall q, in_rectq true r q -> in_rectq true s q).

(* the length of an axis-parallel edge *)
Definition edge_len (e : point * point) : Z := Z.abs (px (snd e) - px (fst e)) + Z.abs (py (snd e) - py (fst e)).

(* the slope of a direction; None: vertical, greater than every other slope *)
Definition slope (dx dy : Z) : option Q := if dx =? 0 then None else Some (inject_Z dy / inject_Z dx)%Q.
Definition slope_lt (s t : option Q) : Prop :=
  match s, t with Some u, Some v => (u < v)%Q | Some _, None => True | None, _ => False end.

(* the segment from p to q does not meet the curve *)
Definition avoids (l : list point) (p q : point) : Prop :=
  forall e z, In e (cyc_edges l) -> on_seg (mk_seg (fst e) (snd e)) z -> ~ on_seg (mk_seg p q) z.

(* the edges are horizontal and vertical in turn, starting with o *)
Fixpoint alt_edges (o : orient) (es : list (point * point)) : Prop :=
  match es with
  | [] => True
  | (a, b) :: es' =>
      match o with
      | Horizontal => py a = py b /\ alt_edges Vertical es'
      | Vertical => px a = px b /\ alt_edges Horizontal es'
      end
  end.
Definition alternates (o : orient) (l : list point) : Prop := Nat.Even (length l) /\ alt_edges o (cyc_edges l).
