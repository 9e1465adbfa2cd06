(** Vocabulary for the properties of the constitutive functions. *)
From Coq Require Import Reals ZArith.
From Coquelicot Require Import Coquelicot.
From Verif Require Import Base Options Mat3 PhysModel PhysInst.
Open Scope R_scope.

(** the admissible parameters of each equation of state at a density *)
Definition eos_ok (MP : params) (r : R) : Prop :=
  0 < r /\ 0 < rho0 MP /\
  match kind MP with
  | STIFFENED_GAS => True
  | SHOCK_MG => rho0 MP < r -> ss MP * (r - rho0 MP) <> r
  | GODUNOV_ROMENSKI => alpha MP <> 0
  | JWL => cR1 MP <> 0 /\ cR2 MP <> 0
  | COCHRAN_CHAN => cR1 MP <> 1 /\ cR2 MP <> 1
  end.

Definition orthogonal (R : mat3) : Prop := meq (mmul (mtr R) R) id3 /\ meq (mmul R (mtr R)) id3.

(** a curve of states, its value at a time and its velocity *)
Definition at_time (F : nat -> R -> R) (t : R) : vec := fun k => F k t.
Definition has_velocity (F : nat -> R -> R) (t0 : R) (q : vec) : Prop := forall k, is_derive (fun t : R => F k t) t0 (q k).

(** The compile-time and run-time flags agree: the state has a distortion, one material per cell, and it has a
    concentration if the material reacts. *)
Definition plain (o : options) (P : par) : Prop :=
  VISCOUS o = true /\ PMULTI P = false /\ ((-1 < REACTION P)%Z -> MULTI o = true).

(** physically sensible parameters of the strain relaxation *)
Definition relax_ok (P : par) : Prop :=
  0 < rho0 (prm P) /\ 0 <= b02 (prm P) /\ 0 < mu (prm P) /\ 0 < nn (prm P) /\ 0 <= sigY (prm P) /\
  (SOLID P = true -> POWER_LAW P = true -> 0 < b02 (prm P) /\ 0 < tau0 (prm P) /\ 0 < sigY (prm P)).
