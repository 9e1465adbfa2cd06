(** Vocabulary for the Legendre properties: Bonnet's recurrence, independent of the Clenshaw code. *)
From Coq Require Import Reals List.
From Verif Require Import Sum PolyModel.
Import ListNotations.
Open Scope R_scope.

Fixpoint legpair (n : nat) (x : R) : R * R :=
  match n with
  | O => (1, x)
  | S m => let '(a, b) := legpair m x in (b, (INR (2 * m + 3) * x * b - INR (m + 1) * a) / INR (m + 2))
  end.
(** L_0 = 1, L_1 = x, (n+2) L_{n+2} = (2n+3) x L_{n+1} - (n+1) L_n *)
Definition L (n : nat) (x : R) : R := fst (legpair n x).

(** the Legendre series with coefficient vector c *)
Definition series (c : list R) (x : R) : R := rsum (length c) (fun k => co c k * L k x).

(** quadrature sum *)
Definition quad (n : nat) (x w : nat -> R) (f : R -> R) : R := rsum n (fun k => w k * f (x k)).
