(* Specification of Manhattan vertex data, independent of the scan line model.

   A Manhattan polygon set is stored as a list of vertices (major, (minor,
   count)) (polygon_90_set_data.hpp:37, value_type). The vertex (a,(b,c))
   stands for the function that is c on the quadrant {x >= a, y >= b} and 0
   elsewhere; a list of vertices stands for the sum of these functions. All
   coordinates are integers, hence the function is constant on the half-open
   unit cells [x,x+1) x [y,y+1), and a cell is named by its lower left corner.
   "The region of the set" is the set of cells with positive count. *)
From Verif Require Import Base.
From Coq Require Export Sorting.Sorted.

Definition vertex : Type := (Z * (Z * Z))%type.

Definition vx (v : vertex) : Z := fst v.
Definition vy (v : vertex) : Z := fst (snd v).
Definition vc (v : vertex) : Z := snd (snd v).

(* winding count of the cell (x,y): sum of the counts of all vertices in the
   lower left quadrant of the cell *)
Fixpoint cnt (V : list vertex) (x y : Z) : Z :=
  match V with
  | [] => 0
  | v :: V' => (if (vx v <=? x) && (vy v <=? y) then vc v else 0) + cnt V' x y
  end.

(* the region described by vertex data: cells with positive count *)
Definition region (V : list vertex) (x y : Z) : Prop := 0 < cnt V x y.

(* net count of all vertices on the column x, of all vertices on the row y *)
Fixpoint col_total (V : list vertex) (x : Z) : Z :=
  match V with
  | [] => 0
  | v :: V' => (if vx v =? x then vc v else 0) + col_total V' x
  end.
Fixpoint row_total (V : list vertex) (y : Z) : Z :=
  match V with
  | [] => 0
  | v :: V' => (if vy v =? y then vc v else 0) + row_total V' y
  end.

(* vertex data of closed geometry: every edge that starts on a column (row)
   ends on it *)
Definition cols_closed (V : list vertex) : Prop := forall x, col_total V x = 0.
Definition rows_closed (V : list vertex) : Prop := forall y, row_total V y = 0.
Definition closed (V : list vertex) : Prop := cols_closed V /\ rows_closed V.

(* lexicographic order of vertices by position *)
Definition pos_lt (v w : vertex) : Prop := vx v < vx w \/ (vx v = vx w /\ vy v < vy w).
Definition pos_le (v w : vertex) : Prop := vx v < vx w \/ (vx v = vx w /\ vy v <= vy w).

(* canonical form: ordered by position, unit counts, and vertices that share
   their position do not cancel *)
Definition unit_count (v : vertex) : Prop := vc v = 1 \/ vc v = -1.
Definition canon_le (v w : vertex) : Prop :=
  pos_lt v w \/ (vx v = vx w /\ vy v = vy w /\ vc v = vc w).
Definition canonical (V : list vertex) : Prop :=
  Forall unit_count V /\ StronglySorted canon_le V.

Definition b2z (b : bool) : Z := if b then 1 else 0.
