(** Exact linear algebra: what the external decompositions are assumed to return. *)
From Coq Require Import Reals.
From Verif Require Import Base Options Sum Mat3 PhysModel RConsModel.
Open Scope R_scope.

(** the n x n matrices A and B are inverse to each other *)
Definition inverses (n : nat) (A B : mat) : Prop :=
  forall i j, (i < n)%nat -> (j < n)%nat -> mm n A B i j = eye i j /\ mm n B A i j = eye i j.
Definition invertible (n : nat) (A : mat) : Prop := exists B, inverses n A B.
(** .inverse(): the inverse, of the matrices that have one *)
Definition inverse_ok (inverse : nat -> mat -> mat) : Prop := forall n A, invertible n A -> inverses n A (inverse n A).
(** .colPivHouseholderQr().solve(): the solution of a 5 x 5 system that has exactly one *)
Definition solve_ok (qrsolve : nat -> mat -> mat -> mat) : Prop := forall k (M b X : mat),
  (forall x : vec, (forall i, (i < 5)%nat -> rsum 5 (fun j => M i j * x j) = 0) -> forall j, (j < 5)%nat -> x j = 0) ->
  (forall i j, (i < 5)%nat -> (j < k)%nat -> mm 5 M X i j = b i j) ->
  forall i j, (i < 5)%nat -> (j < k)%nat -> qrsolve k M b i j = X i j.
(** EigenSolver: positive eigenvalues l and a basis q of eigenvectors (the columns) of the n x n matrix M *)
Definition eigenbasis (n : nat) (M : mat) (l : vec) (q : mat) : Prop :=
  (forall m, (m < n)%nat -> 0 < l m) /\ invertible n q /\
  forall i m, (i < n)%nat -> (m < n)%nat -> rsum n (fun j => M i j * q j m) = l m * q i m.
