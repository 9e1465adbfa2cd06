(** What a reconstruction is supposed to be, independently of how it is computed. *)
From Coq Require Import Reals List.
From Coquelicot Require Import Coquelicot.
From Verif Require Import Options Sum.
Open Scope R_scope.

(** the polynomial with coefficients [c] (component [v]) in the functions [psi 0 .. psi (n-1)] *)
Definition recon1 (n : nat) (psi : nat -> R -> R) (c : nat -> vec) (v : nat) (x : R) : R :=
  rsum n (fun s => c s v * psi s x).
Definition recon2 (n : nat) (psi : nat -> R -> R) (c : nat -> nat -> vec) (v : nat) (x y : R) : R :=
  rsum n (fun s => rsum n (fun t => c s t v * psi s x * psi t y)).

(** a function of one variable of degree < n; of two variables, of degree < n in each *)
Definition pol1 (n : nat) (q : nat -> R) (x : R) : R := rsum n (fun a => q a * x ^ a).
Definition pol2 (n : nat) (q : nat -> nat -> R) (x y : R) : R := rsum n (fun a => rsum n (fun b => q a b * x ^ a * y ^ b)).

(** integral over cell number p of a unit grid, and over the unit square at (p, r) *)
Definition cell1 (f : R -> R) (p : nat) : R := RInt f (INR p) (INR p + 1).
Definition cell2 (f : R -> R -> R) (p r : nat) : R := RInt (fun x => RInt (fun y => f x y) (INR r) (INR r + 1)) (INR p) (INR p + 1).
