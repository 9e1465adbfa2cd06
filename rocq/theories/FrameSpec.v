(** A state seen from another frame. *)
From Coq Require Import Reals.
From Verif Require Import Base Options Mat3 PhysModel PhysSpec.
Open Scope R_scope.

(** [q'] is [q] for an observer turned by [Y] of a material turned by [X]: vectors are turned, scalars are the same *)
Record turned (o : options) (X Y : mat3) (q q' : vec) : Prop := {
  tu_density : q' 0%nat = q 0%nat;
  tu_energy : q' 1%nat = q 1%nat;
  tu_momentum : veq (get_rhov q') (mvec Y (get_rhov q));
  tu_distortion : meq (get_A q') (mmul (mmul X (get_A q)) (mtr Y));
  tu_impulse : THERMAL o = true -> veq (get_rhoJ q') (mvec Y (get_rhoJ q));
  tu_rest : forall k, (14 + (if THERMAL o then 3 else 0) <= k)%nat -> q' k = q k }.
(** a result and the result in the other frame *)
Definition turned_result (o : options) (X Y : mat3) (r r' : option vec) : Prop :=
  match r, r' with Some q, Some q' => turned o X Y q q' | None, None => True | _, _ => False end.
