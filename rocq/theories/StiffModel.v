(** Model of /repo/code/cpp/src/solvers/split/numeric.cpp: the implicit solver for scalar ordinary differential equations. *)
From Coq Require Import Reals.
From Verif Require Import Base Sum KrylovModel.
Open Scope R_scope.

Section Stiff.
Variable n : nat.
Variable WGHTS : nat -> R.
Variables ENDVALS DG_M : nat -> nat -> R.

(** numeric.cpp 5-13 *)
Definition obj0 (x0 dt : R) (f : R -> R) (x : dv) : dv :=
  fun i => rsum n (fun j => DG_M i j * x j) - x0 * ENDVALS 0%nat i - dt * WGHTS i * f (x i).

(** numeric.cpp 15-25; the decompositions inside nonlin_solve are Eigen's *)
Definition stiff_ode_solve (qr : nat -> nat -> dmat -> dmat * dmat) (lsolve : nat -> dmat -> dv -> dv) (junk : dv)
    (x0 dt : R) (f : R -> R) : res R :=
  let xin : dv := fun _ => x0 * 1 in
  '(st, _) <- nonlin_solve n (obj0 x0 dt f) qr lsolve junk default_tols xin ;;
  Ok (rsum n (fun j => nx st j * ENDVALS 1%nat j)).
End Stiff.
