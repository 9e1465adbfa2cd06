(** Plane motion: nothing moves, and no heat flows, in direction [e], and the distortion does not couple that direction with the two others. These components of a state vanish; the others may be anything. *)
From Coq Require Import Reals Arith.
From Verif Require Import Base Options EqModel.
Open Scope R_scope.

(** the components that change sign when direction [e] is reversed: the momentum in that direction, the off-diagonal entries of the distortion in row e or column e, and the thermal impulse in
    that direction *)
Definition across (o : options) (e k : nat) : bool :=
  (Nat.eqb k (2 + e)
   || (Nat.leb 5 k && Nat.ltb k 14 && xorb (Nat.eqb ((k - 5) / 3) e) (Nat.eqb ((k - 5) mod 3) e))
   || (THERMAL o && Nat.eqb k (14 + e)))%bool.
Definition plane (o : options) (e : nat) (q : vec) : Prop := forall k, across o e k = true -> q k = 0.

(** a material without a preferred side of such a plane: in a state of plane motion no shear stress couples the direction with the others, and the sources do not push out of the plane *)
Definition planar (o : options) (ph : phys) (e : nat) : Prop := forall q, plane o e q ->
  (forall d, (d < 3)%nat -> d <> e -> sigma ph q d e = 0) /\ plane o e (source ph q).

(** a matrix that does not couple the components across the plane with the others *)
Definition sided (o : options) (e : nat) (M : mat) : Prop := forall a b, across o e a <> across o e b -> M a b = 0.
(** With the fluxes of Roe (1) and Osher (2): the system matrix of a plane state is such a matrix, and the absolute value of such a matrix that the eigenvalue solver computes keeps the plane. Rusanov's
    flux (0) needs neither. *)
Definition level_waves (o : options) (ph : phys) (e FLUX : nat) : Prop :=
  FLUX = 0%nat \/ ((forall q d, (d < 3)%nat -> d <> e -> plane o e q -> sided o e (system_matrix o ph q d)) /\ (forall M x, sided o e M -> plane o e x -> plane o e (eigabs ph M x))).
