(** What the ghost layers must contain, by (signed) cell coordinates; ghosts are at negative coordinates and at
    coordinates [>= n]. *)
From Coq Require Import ZArith List Reals.
From Verif Require Import Options Mat3 GridModel.
Open Scope Z_scope.

Section Ext.
Variable cell : Type.
Variable wallf : nat -> nat -> cell -> cell.

(** value of a ghost of type [ty] at [x]: [near] is the closest interior coordinate, [mirror] the reflected one *)
Definition ghost (ty d : nat) (n : Z) (f : Z -> cell) (x near mirror : Z) : cell :=
  match ty with
  | 0%nat => f near                          (* transmissive *)
  | 1%nat => f (x mod n)                     (* periodic *)
  | _ => wallf ty d (f mirror)               (* walls *)
  end.

Definition extend1 (ty0 ty1 d : nat) (n : Z) (f : Z -> cell) (x : Z) : cell :=
  if x <? 0 then ghost ty0 d n f x 0 (-1 - x)
  else if x <? n then f x
  else ghost ty1 d n f x (n - 1) (2 * n - 1 - x).

Definition extend2 (bt : nat -> nat) (nx ny : Z) (u : Z -> Z -> cell) (x y : Z) : cell :=
  extend1 (bt 2%nat) (bt 3%nat) 1 ny (fun y' => extend1 (bt 0%nat) (bt 1%nat) 0 nx (fun x' => u x' y') x) y.
End Ext.

(** ** masks: cells within one face of a masked cell *)
Definition near1 (nx : nat) (m : nat -> bool) (x : Z) : Prop :=
  exists k, (k < nx)%nat /\ m k = true /\ Z.abs (x - Z.of_nat k) <= 1.

Definition near2 (nx ny : nat) (m : nat -> nat -> bool) (x y : Z) : Prop :=
  exists k l, (k < nx)%nat /\ (l < ny)%nat /\ m k l = true /\ Z.abs (x - Z.of_nat k) + Z.abs (y - Z.of_nat l) <= 1.

(** ** walls: energies of a state vector [q] = (rho, rho E, rho v, A row by row, ...) *)
Definition kinetic (q : vec) : R := ((q 2%nat * q 2%nat + q 3%nat * q 3%nat + q 4%nat * q 4%nat) / (2 * q 0%nat))%R.
Definition distortion (q : vec) : mat3 := fun i j => q (5 + 3 * i + j)%nat.
(** the invariants of A that the equations of state depend on *)
Definition same_strain (A B : mat3) : Prop :=
  trace3 (gram A) = trace3 (gram B) /\ trace3 (mmul (gram A) (gram A)) = trace3 (mmul (gram B) (gram B)) /\ det3 A = det3 B.
Definition flip (d i : nat) : R := if Nat.eqb i d then (-1)%R else 1%R.
