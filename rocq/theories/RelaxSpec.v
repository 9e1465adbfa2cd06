(** Vocabulary for the source-term steps. *)
From Coq Require Import Reals.
From Coquelicot Require Import Coquelicot.
From Verif Require Import Base Options Mat3 PhysModel PhysSpec.
Open Scope R_scope.

Definition diag (s : vec3) : mat3 := fun i j => if Nat.eqb i j then s i else 0.
(** the matrix with singular values [s] and singular directions the columns of [U] and [W] *)
Definition assemble (U : mat3) (s : vec3) (W : mat3) : mat3 := mmul (mmul U (diag s)) (mtr W).
Definition descending (s : vec3) : Prop := s 2%nat <= s 1%nat <= s 0%nat.
(** a singular value decomposition *)
Definition svd_of (A : mat3) (d : mat3 * vec3 * mat3) : Prop :=
  let '(U, s, W) := d in orthogonal U /\ orthogonal W /\ meq A (assemble U s W) /\ descending s /\ 0 <= s 2%nat.
Definition singular_values (d : mat3 * vec3 * mat3) : vec3 := let '(_, s, _) := d in s.

(** Squares of singular values, scaled to have product one: [x i = (s i / c)^2] where [c^3] is the product of the [s i].
    [mean] and [spread] measure the anisotropy. *)
Definition mean (x : vec3) : R := sum3 x / 3.
Definition spread (x : vec3) : R := sum3 (fun i => (x i - mean x) * (x i - mean x)).
Definition scaled (s x : vec3) : Prop :=
  exists c, c * c * c = s 0%nat * s 1%nat * s 2%nat /\ forall i, (i < 3)%nat -> x i * (c * c) = s i * s i.
(** twice the product of the deviations from the mean: positive if one value is above the mean and two below, as in a
    uniaxial extension, negative in a uniaxial compression *)
Definition skew (x : vec3) : R := 2 * ((x 0%nat - mean x) * (x 1%nat - mean x) * (x 2%nat - mean x)).
Definition moderate (x : vec3) : Prop := spread x <= 9 * (mean x - 1).

(** sensible parameters of the strain relaxation *)
Definition relaxing (P : par) : Prop :=
  0 < rho0 (prm P) /\ 0 < b02 (prm P) /\ 0 < mu (prm P) /\
  (SOLID P = true -> POWER_LAW P = true -> 0 < tau0 (prm P) /\ 0 < sigY (prm P)).
(** the same singular directions *)
Definition same_directions (A A' : mat3) (U : mat3) (s s' : vec3) (W : mat3) : Prop :=
  svd_of A (U, s, W) /\ svd_of A' (U, s', W).
