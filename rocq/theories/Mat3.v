(** 3x3 real matrices and 3-vectors as functions of indices; only indices 0,1,2 are used.
    Nothing in this file models a particular C++ function: it is the vocabulary in which Eigen's fixed-size
    expressions are written. *)
From Coq Require Import Reals.
Open Scope R_scope.

Definition vec3 := nat -> R.
Definition mat3 := nat -> nat -> R.

Definition sum3 (f : nat -> R) : R := f 0%nat + f 1%nat + f 2%nat.
Definition dot3 (u v : vec3) : R := sum3 (fun k => u k * v k).
Definition delta (i j : nat) : R := if Nat.eqb i j then 1 else 0.
Definition id3 : mat3 := delta.
Definition mmul (A B : mat3) : mat3 := fun i j => sum3 (fun k => A i k * B k j).
Definition mvec (A : mat3) (v : vec3) : vec3 := fun i => sum3 (fun k => A i k * v k).
Definition mtr (A : mat3) : mat3 := fun i j => A j i.
Definition madd (A B : mat3) : mat3 := fun i j => A i j + B i j.
Definition msub (A B : mat3) : mat3 := fun i j => A i j - B i j.
Definition mscal (c : R) (A : mat3) : mat3 := fun i j => c * A i j.
Definition trace3 (A : mat3) : R := sum3 (fun k => A k k).
Definition frob3 (A B : mat3) : R := sum3 (fun i => sum3 (fun j => A i j * B i j)).
Definition det3 (A : mat3) : R :=
  A 0%nat 0%nat * (A 1%nat 1%nat * A 2%nat 2%nat - A 1%nat 2%nat * A 2%nat 1%nat)
  - A 0%nat 1%nat * (A 1%nat 0%nat * A 2%nat 2%nat - A 1%nat 2%nat * A 2%nat 0%nat)
  + A 0%nat 2%nat * (A 1%nat 0%nat * A 2%nat 1%nat - A 1%nat 1%nat * A 2%nat 0%nat).
(** the metric tensor G = A^T A and its deviator *)
Definition gram (A : mat3) : mat3 := mmul (mtr A) A.
Definition dev3 (G : mat3) : mat3 := fun i j => G i j - trace3 G / 3 * delta i j.
Definition meq (A B : mat3) : Prop := forall i j, (i < 3)%nat -> (j < 3)%nat -> A i j = B i j.
Definition veq (u v : vec3) : Prop := forall i, (i < 3)%nat -> u i = v i.
