(* Specification of directions and axis transformations: unit vectors of the
   plane. Independent of the bit encodings used by the code. *)
From Verif Require Import Base.

Inductive dir : Type := West | East | South | North.

Definition vec : Type := (Z * Z)%type.
Definition unit_vec (d : dir) : vec :=
  match d with West => (-1, 0) | East => (1, 0) | South => (0, -1) | North => (0, 1) end.

Definition vneg (v : vec) : vec := (- fst v, - snd v).
(* rotation by 90 degrees counterclockwise, clockwise *)
Definition rot_ccw (v : vec) : vec := (- snd v, fst v).
Definition rot_cw (v : vec) : vec := (snd v, - fst v).

(* x times the vector of h plus y times the vector of v *)
Definition combine_dirs (h v : dir) (x y : Z) : vec :=
  (x * fst (unit_vec h) + y * fst (unit_vec v), x * snd (unit_vec h) + y * snd (unit_vec v)).

Definition horizontal (d : dir) : bool := match d with West | East => true | _ => false end.
Definition positive (d : dir) : bool := match d with East | North => true | _ => false end.

(* the public enum direction_2d_enum, isotropy.hpp:336 *)
Definition dir_code (d : dir) : Z :=
  match d with West => 0 | East => 1 | South => 2 | North => 3 end.

(* the documented table of axis transformations, transform.hpp:31-41: the
   directions that the positive horizontal and vertical axes are mapped to *)
Definition atr_dirs (a : Z) : dir * dir :=
  match a with
  | 0 => (East, North) | 1 => (West, North) | 2 => (East, South) | 3 => (West, South)
  | 4 => (North, East) | 5 => (South, East) | 6 => (North, West) | _ => (South, West)
  end.
