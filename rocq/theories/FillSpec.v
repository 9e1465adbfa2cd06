(** Vocabulary of the interface and ghost-filling theorems: cells are coordinate lists (FmmSpec), no helper of the model. *)
From Coq Require Import Reals List Arith ZArith.
From Verif Require Import FmmSpec.
Import ListNotations.
Open Scope nat_scope.

(** face neighbours within the grid *)
Definition adjacent (shape c c' : list nat) : Prop := inside shape c' /\ exists d, nbr d c c'.

Section Labels.
Variable shape : list nat.
Variable P : list nat -> R.
(** a non-positive cell all of whose neighbours are positive *)
Definition isolated (c : list nat) : Prop := (P c <= 0)%R /\ forall c', adjacent shape c c' -> (0 < P c')%R.
(** the interface label [z] of cell [c] of a one-dimensional grid: its side, next to a cell of the other side or to a
    zero (or if it is a zero itself), and 0 elsewhere *)
Definition label_1d (c : list nat) (z : Z) : Prop :=
  let met := exists c', adjacent shape c c' /\ (P c * P c' <= 0)%R in
  (met -> (0 < P c)%R -> z = 1%Z) /\ (met -> (P c <= 0)%R -> z = (-1)%Z) /\ (~ met -> z = 0%Z).
(** the same on a two-dimensional grid, where isolated cells are labelled -2 and do not make an interface *)
Definition label_2d (c : list nat) (z : Z) : Prop :=
  let met := exists c', adjacent shape c c' /\ (P c * P c' <= 0)%R in
  (isolated c -> z = (-2)%Z) /\
  ((P c <= 0)%R -> ~ isolated c -> met -> z = (-1)%Z) /\
  ((P c <= 0)%R -> ~ isolated c -> ~ met -> z = 0%Z) /\
  ((0 < P c)%R -> (exists c', adjacent shape c c' /\ (P c' <= 0)%R /\ ~ isolated c') -> z = 1%Z) /\
  ((0 < P c)%R -> ~ (exists c', adjacent shape c c' /\ (P c' <= 0)%R /\ ~ isolated c') -> z = 0%Z).
End Labels.

(** [c] is reached from a seed by [n] steps through cells that are to be filled *)
Inductive walk (shape : list nat) (seed free : list nat -> Prop) : nat -> list nat -> Prop :=
| walk_seed c : inside shape c -> seed c -> walk shape seed free 0 c
| walk_step n c c' : walk shape seed free n c -> adjacent shape c c' -> free c' -> walk shape seed free (S n) c'.
(** [n] is the least number of steps *)
Definition reaches (shape : list nat) (seed free : list nat -> Prop) (n : nat) (c : list nat) : Prop :=
  walk shape seed free n c /\ forall k, walk shape seed free k c -> n <= k.

(** the gradient [g] of a level set (its first [nd] components) has length [len] *)
Definition length_of (nd : nat) (g : nat -> R) : R := sqrt (fold_right (fun d s => (g d * g d + s)%R) 0%R (seq 0 nd)).

(** the point [s] cells along the unit vector [n] from the interface point of cell [C], whose level set is [p] *)
Definition probe_point (dX : nat -> R) (C : list nat) (p : R) (n : nat -> R) (s : R) (d : nat) : R :=
  ((INR (nth d C 0%nat) + 1 / 2) * dX d - p * n d + s * dX d * n d)%R.
(** a point inside the grid; the first row extends one cell to the left, because indices are rounded towards zero *)
Definition in_box (dX : nat -> R) (shape : list nat) (x : nat -> R) : Prop :=
  forall d, d < length shape -> (- dX d < x d < INR (nth d shape 0%nat) * dX d)%R.
(** the cells that belong to a material with level set [P]: those inside it and the layer around it; on two-dimensional
    grids isolated cells do not count *)
Definition belongs (shape : list nat) (P : list nat -> R) (c : list nat) : Prop :=
  let solid c := (P c <= 0)%R /\ (length shape = 2 -> ~ isolated shape P c) in
  solid c \/ (0 < P c)%R /\ exists c', adjacent shape c c' /\ solid c'.
(** the cell that holds the point [x], with the same convention for the first row *)
Definition cell_of (dX : nat -> R) (shape : list nat) (x : nat -> R) (c : list nat) : Prop :=
  inside shape c /\ forall d, d < length shape ->
    (nth d c 0%nat = 0%nat /\ (- dX d < x d < dX d)%R) \/
    (INR (nth d c 0%nat) * dX d <= x d < (INR (nth d c 0%nat) + 1) * dX d)%R.
(** the unit vector along [g] *)
Definition unit_of (nd : nat) (g : nat -> R) : nat -> R := fun d => (g d / length_of nd g)%R.
(** the cells one step against [n] along each axis are in the grid *)
Definition room_behind (shape c : list nat) (n : nat -> R) : Prop := forall d, d < length shape ->
  ((0 < n d)%R -> 1 <= nth d c 0) /\ ((n d < 0)%R -> nth d c 0 + 1 < nth d shape 0).

(** what the filling of the ghost cell [c] of material [mat] needs: [P] is the level set of the material, [g] its
    gradient, [T] the material of each cell. The interface point is the point of the interface closest to [c]. *)
Section Ghost.
Variables (dX : nat -> R) (shape : list nat) (P : list nat -> R) (g : list nat -> nat -> R) (T : list nat -> nat) (mat : nat).
Definition point_at (s : R) (c : list nat) : nat -> R := probe_point dX c (P c) (unit_of (length shape) (g c)) s.
Definition fillable (c : list nat) : Prop :=
  (0 < length_of (length shape) (g c))%R /\
  in_box dX shape (point_at (-1) c) /\ in_box dX shape (point_at 0 c) /\ in_box dX shape (point_at 1 c) /\
  ((exists i, (cell_of dX shape (point_at 0 c) i \/ cell_of dX shape (point_at (-1) c) i) /\ T i = mat) \/
   (length shape = 2 /\ room_behind shape c (unit_of (length shape) (g c)))).
(** the cells written for [c]: itself, and the cell of its interface point unless that is of the material *)
Definition written (c k : list nat) : Prop := k = c \/ (cell_of dX shape (point_at 0 c) k /\ T k <> mat).
End Ghost.
(** a ghost cell of the first layer: outside the material, next to a cell inside it *)
Definition first_ghost (shape : list nat) (P : list nat -> R) (c : list nat) : Prop :=
  inside shape c /\ (0 < P c)%R /\ exists c', adjacent shape c c' /\ (P c' <= 0)%R /\ (length shape = 2 -> ~ isolated shape P c').
