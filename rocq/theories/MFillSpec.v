(** Vocabulary of the ghost-filling theorem on a one-dimensional grid with one interface; no helper of the model. *)
From Coq Require Import Reals Arith.
From Verif Require Import Options.
Open Scope nat_scope.

(** the level set [phi] on [nx] cells has one sign on the cells 0 ... j and the other one on the rest *)
Definition one_interface (nx j : nat) (rising : bool) (phi : nat -> R) : Prop :=
  j + 1 < nx /\ forall i, i < nx -> if Bool.eqb rising (Nat.leb i j) then (phi i < 0)%R else (0 < phi i)%R.
(** where it vanishes between the centres of j and j+1, as a fraction of a cell, by linear interpolation *)
Definition crossing_fraction (j : nat) (phi : nat -> R) : R := (Rabs (phi j) / (Rabs (phi j) + Rabs (phi (j + 1)%nat)))%R.
(** the signed distance of the centre of cell [i] to that point *)
Definition signed_distance (j : nat) (rising : bool) (h a : R) (i : nat) : R := ((if rising then 1 else -1) * (INR i - (INR j + a)) * h)%R.
(** with two materials, number 0 is where the level set is negative: is material [mat] on the left? *)
Definition on_left (rising : bool) (mat : nat) : bool := if Nat.eqb mat 0 then rising else negb rising.
(** how many cells outside its material a cell is, the last cell of the material, and the cell that holds the point one cell beyond the interface (cells are rounded towards zero) *)
Definition outside (left : bool) (j i : nat) : nat := if left then i - j else j + 1 - i.
Definition last_cell (left : bool) (j : nat) : nat := if left then j else j + 1.
Definition beyond (left : bool) (j : nat) (a : R) : nat :=
  let k := if Rlt_dec a (1 / 2) then j else j + 1 in if left then k + 1 else k - 1.
(** the cell [q] with the material components of [s]; the last LSET components stay *)
Definition with_material (o : options) (q s : vec) : vec := fun k => if Nat.ltb k (V o - LSET o) then s k else q k.
