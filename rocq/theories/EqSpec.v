(** The physical flux of the Godunov-Peshkov-Romenski equations, component by component, written from the equations:
    density, total energy, momentum, distortion, thermal impulse, concentration; level sets are not fluxed. *)
From Coq Require Import Reals.
From Verif Require Import Options EqModel Mat3.
Open Scope R_scope.

Section S.
Variable o : options.
Variable ph : phys.

Definition velocity (Q : vec) : vec3 := fun i => Q (2 + i)%nat / Q 0%nat.
Definition Amat (Q : vec) : mat3 := fun i j => Q (5 + 3 * i + j)%nat.
Definition heat_flux (Q : vec) (d : nat) : R :=
  if THERMAL o then calpha2 ph * temperature ph (Q 0%nat) (pressure ph Q) * (Q (14 + d)%nat / Q 0%nat) else 0.

Definition physical_flux (Q : vec) (d k : nat) : R :=
  let v := velocity Q in let p := pressure ph Q in
  if Nat.eqb k 0 then Q 0%nat * v d
  else if Nat.eqb k 1 then v d * (Q 1%nat + p) - dot3 (sigma ph Q d) v + heat_flux Q d
  else if Nat.ltb k 5 then let i := (k - 2)%nat in Q 0%nat * v i * v d + p * delta i d - sigma ph Q d i
  else if Nat.ltb k 14 then let i := ((k - 5) / 3)%nat in let j := ((k - 5) mod 3)%nat in mvec (Amat Q) v i * delta j d
  else if (THERMAL o && Nat.ltb k 17)%bool then
    let i := (k - 14)%nat in Q k * v d + temperature ph (Q 0%nat) p * delta i d
  else if (MULTI o && Nat.eqb k (mV o))%bool then Q k * v d
  else 0.

(** components that obey a conservation law: all but the distortion and the level sets *)
Definition conserved (k : nat) : Prop := (k < 5 \/ 14 <= k < V o - LSET o)%nat.
End S.
