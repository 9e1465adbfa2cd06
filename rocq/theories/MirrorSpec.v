(** The mirror image of a state, in the plane normal to the first axis: the first component of every vector changes sign,
    and the entries of a matrix with exactly one index 0. Component 14 is the first component of the thermal impulse when
    there is heat conduction; everything else is a scalar. *)
From Coq Require Import Reals.
From Verif Require Import Options.
Open Scope R_scope.

Definition sign (o : options) (k : nat) : R :=
  match k with 2%nat | 6%nat | 7%nat | 8%nat | 11%nat => -1 | 14%nat => if THERMAL o then -1 else 1 | _ => 1 end.
Definition mirror (o : options) (q : vec) : vec := fun k => sign o k * q k.
