(** What is assumed of Eigen and asked of LGMRES in exact arithmetic.  Nothing here mentions how the solver works. *)
From Coq Require Import Reals.
From Verif Require Import Base Sum.
Open Scope R_scope.

Definition delta (r s : nat) : R := if Nat.eqb r s then 1 else 0.
(** the map is multiplication by some matrix *)
Definition is_matrix (n : nat) (f : (nat -> R) -> nat -> R) : Prop :=
  exists A : nat -> nat -> R, forall v i, (i < n)%nat -> f v i = rsum n (fun j => A i j * v j).
Definition orthogonal (p : nat) (Q : nat -> nat -> R) : Prop :=
  forall r s, (r < p)%nat -> (s < p)%nat ->
    rsum p (fun k => Q k r * Q k s) = delta r s /\ rsum p (fun k => Q r k * Q s k) = delta r s.
(** the full QR decomposition of a p x q matrix *)
Definition qr_ok (qr : nat -> nat -> (nat -> nat -> R) -> (nat -> nat -> R) * (nat -> nat -> R)) : Prop :=
  forall p q A, (q <= p)%nat -> let '(Q, T) := qr p q A in
    orthogonal p Q /\ (forall r c, (r < p)%nat -> (c < q)%nat -> (c < r)%nat -> T r c = 0) /\
    (forall r c, (r < p)%nat -> (c < q)%nat -> A r c = rsum p (fun k => Q r k * T k c)).
(** the residual of a square system, squared *)
Definition misfit (q : nat) (T : nat -> nat -> R) (g y : nat -> R) : R :=
  rsum q (fun r => (rsum q (fun k => T r k * y k) - g r) * (rsum q (fun k => T r k * y k) - g r)).
(** the solver of square systems returns a least squares solution (the solution, if the matrix is invertible) *)
Definition lsq_ok (lsolve : nat -> (nat -> nat -> R) -> (nat -> R) -> nat -> R) : Prop :=
  forall q T g y, misfit q T g (lsolve q T g) <= misfit q T g y.
(** a combination of the first [k] vectors of a family *)
Definition lincomb (k : nat) (c : nat -> R) (V : nat -> nat -> R) : nat -> R := fun i => rsum k (fun r => c r * V r i).
Fixpoint power (f : (nat -> R) -> nat -> R) (k : nat) (v : nat -> R) : nat -> R :=
  match k with O => v | S k => f (power f k v) end.
(** the vectors spanned by the first [k] of a family *)
Definition inspan (n k : nat) (V : nat -> nat -> R) (z : nat -> R) : Prop := exists c, forall i, (i < n)%nat -> z i = lincomb k c V i.
(** the Krylov space of dimension at most [k] *)
Definition krylov (n : nat) (f : (nat -> R) -> nat -> R) (k : nat) (v : nat -> R) (z : nat -> R) : Prop := inspan n k (fun l => power f l v) z.
(** the function is a matrix and a constant *)
Definition is_affine (n : nat) (F : (nat -> R) -> nat -> R) : Prop :=
  exists (A : nat -> nat -> R) (b : nat -> R), forall v i, (i < n)%nat -> F v i = rsum n (fun j => A i j * v j) + b i.
