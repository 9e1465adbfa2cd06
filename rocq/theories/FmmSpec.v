(** Vocabulary of the fast-marching theorems: grids as coordinate lists, no helper of the marcher. *)
From Coq Require Import Reals List Arith.
Import ListNotations.
Open Scope nat_scope.

(** number of cells of a grid *)
Fixpoint cells (shape : list nat) : nat := match shape with [] => 1 | n :: s => n * cells s end.

(** [c] is a cell of the grid *)
Fixpoint inside (shape c : list nat) : Prop :=
  match shape, c with
  | [], [] => True
  | n :: s, x :: c' => x < n /\ inside s c'
  | _, _ => False
  end.

(** row-major address of a cell *)
Fixpoint flat (shape c : list nat) : nat :=
  match shape, c with
  | _ :: s, x :: c' => x * cells s + flat s c'
  | _, _ => 0
  end.

(** [c'] is the cell after [c] in dimension [d]; face neighbours *)
Inductive next : nat -> list nat -> list nat -> Prop :=
| next_here x c : next 0 (x :: c) (S x :: c)
| next_later d x c c' : next d c c' -> next (S d) (x :: c) (x :: c').
Definition nbr (d : nat) (c c' : list nat) : Prop := next d c c' \/ next d c' c.

Open Scope R_scope.

(** two values on the same side, zero exactly together *)
Definition same_side (p x : R) : Prop := (0 < p -> 0 < x) /\ (p < 0 -> x < 0) /\ (p = 0 -> x = 0).

Section Field.
Variable shape : list nat.
Variable P : list nat -> R.      (* level set, by cell *)

Definition crossing (d : nat) (c c' : list nat) : Prop := inside shape c' /\ nbr d c c' /\ P c * P c' < 0.
(** the level set has an interface: it vanishes in a cell or changes sign between face neighbours *)
Definition has_interface : Prop :=
  (exists c, inside shape c /\ P c = 0) \/ (exists d c c', inside shape c /\ crossing d c c').
(** [c] lies on the interface *)
Definition on_interface (c : list nat) : Prop := P c = 0 \/ exists d c', crossing d c c'.

(** distance from the centre of [c] to the zero of the linear interpolant towards [c'] *)
Definition crossing_distance (dX : list R) (d : nat) (c c' : list nat) : R :=
  nth d dX 0 * Rabs (P c) / (Rabs (P c) + Rabs (P c')).

(** value [x] of an interface cell: 0 on the interface, otherwise the least crossing distance *)
Definition initial_value (dX : list R) (c : list nat) (x : R) : Prop :=
  (P c = 0 -> x = 0) /\
  (P c <> 0 -> (exists d c', crossing d c c' /\ Rabs x = crossing_distance dX d c c') /\
               (forall d c', crossing d c c' -> Rabs x <= crossing_distance dX d c c')).
End Field.

(** [m] is the upwind difference of [|D|] at [c] in dimension [d]: the largest drop towards a neighbour, or 0 *)
Definition upwind (shape : list nat) (D : list nat -> R) (c : list nat) (d : nat) (m : R) : Prop :=
  0 <= m /\
  (forall c', inside shape c' -> nbr d c c' -> Rabs (D c) - Rabs (D c') <= m) /\
  (m = 0 \/ exists c', inside shape c' /\ nbr d c c' /\ m = Rabs (D c) - Rabs (D c')).
(** the first-order upwind (Godunov) discretisation of [|grad D| = 1] holds at [c] *)
Definition eikonal_at (shape : list nat) (h : R) (D : list nat -> R) (c : list nat) : Prop :=
  exists m, (forall d, (d < length shape)%nat -> upwind shape D c d (m d)) /\
    fold_right Rplus 0 (map (fun d => m d ^ 2) (seq 0 (length shape))) = h ^ 2.
