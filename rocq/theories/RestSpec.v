(** A fluid at rest: no momentum, the same energy per volume everywhere, and a distortion that is a multiple of the identity. The density, and that multiple, may be anything and may vary from
    place to place. *)
From Coq Require Import Reals ZArith.
From Verif Require Import Base Options Sum EqModel WenoModel DgModel FvBody RefSpec.
Open Scope R_scope.

Record resting (E0 : R) (q : vec) : Prop := {
  re_energy : q 1%nat = E0;
  re_momentum : q 2%nat = 0 /\ q 3%nat = 0 /\ q 4%nat = 0;
  re_off : q 6%nat = 0 /\ q 7%nat = 0 /\ q 8%nat = 0 /\ q 10%nat = 0 /\ q 11%nat = 0 /\ q 12%nat = 0;
  re_diag : q 9%nat = q 5%nat /\ q 13%nat = q 5%nat }.

(** a material in which such states are in equilibrium: with any density in a given range, the pressure is always the same, there is no shear stress, and no source *)
Definition rests (range : R -> Prop) (ph : phys) (E0 p0 : R) : Prop := forall q, resting E0 q -> range (q 0%nat) ->
  pressure ph q = p0 /\ (forall d i, (d < 3)%nat -> (i < 3)%nat -> sigma ph q d i = 0) /\ (forall k, source ph q k = 0).

(** a density in that range, none of which vanishes: at the nodes of a cell, where the density is b, and at the ends of the cell *)
Section Dense.
Variable range : R -> Prop.
Variable o : options.
Variable ENDVALS : nat -> nat -> R.
Definition dense1 (b : nat -> R) : Prop := (forall s, (s < N o)%nat -> range (b s)) /\ forall e, (e < 2)%nat -> range (rsum (N o) (fun r => ENDVALS e r * b r)).
Definition dense2 (b : nat -> R) : Prop := (forall s, (s < N o ^ 2)%nat -> range (b s)) /\
  forall e s, (e < 2)%nat -> (s < N o)%nat -> range (rsum (N o) (fun r => ENDVALS e r * b (r * N o + s)%nat)) /\ range (rsum (N o) (fun r => ENDVALS e r * b (s * N o + r)%nat)).

(** in every cell of a grid and next to it: the density that is reconstructed from the cells *)
Variables (SIG : nat -> nat -> R) (LAMS LAMC EPS : R) (inv : stencil -> (nat -> R) -> nat -> R).
Variable wallf : nat -> nat -> num -> num.
Variable bt : nat -> nat.
Definition solid1 (n : nat) (x : nat -> vec) : Prop := forall z, (-1 <= z <= Z.of_nat n)%Z ->
  dense1 (fun s => block1 (N o) SIG LAMS LAMC EPS inv None (extended1 wallf bt n x) z s 0%nat).
Definition solid2 (nx ny : nat) (x : nat -> nat -> vec) : Prop := forall a b, (-1 <= a <= Z.of_nat nx)%Z -> (-1 <= b <= Z.of_nat ny)%Z ->
  dense2 (fun s => block2 (N o) SIG LAMS LAMC EPS inv None (extended2 wallf bt nx ny x) a b s 0%nat).
End Dense.
