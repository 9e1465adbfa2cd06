(** Model of /repo/code/cpp/src/solvers/split/homogeneous.cpp (the half step of the reconstruction) and of the whole
    split step (/repo/code/cpp/src/solvers/steppers.cpp 50-66): the loops of StepperModel.v with the reconstruction of
    WenoModel.v, this half step and the finite volume increments of FvBody.v.
    As in AderModel.v a block or a cell may be NaN ([None]); [valid] says where the constitutive functions give numbers. *)
From Coq Require Import Reals.
From Verif Require Import Base Options Sum EqModel FvModel FvBody WenoModel DgModel StepperModel AderModel.
Import List ListNotations.
Open Scope nat_scope.

Section Homog.
Variable o : options.
Variable ph : phys.
Variable DERVALS : nat -> nat -> R.
Variables (dt : R) (dX : nat -> R).
Notation flux := (flux o ph (fun _ => 0%R)).
Notation derivs1d := (derivs1d o DERVALS).
Notation derivs2d := (derivs2d o DERVALS).

(** homogeneous.cpp 19-32; the derivatives are taken before any row of w is changed *)
Definition mid1 (w : nodal) : res nodal :=
  rows (N o) (fun a =>
    let dwdx := derivs1d w a in
    let dFdx := derivs1d (fun s => flux (w s) 0) a in
    Bdwdx <- Bdot o (w a) dwdx 0 ;;
    Ok (fun k => w a k - dt / 2 * (dFdx k + Bdwdx k) / dX 0)%R).
(** homogeneous.cpp 43-64 *)
Definition mid2 (w : nodal) : res nodal :=
  rows (N o * N o) (fun s =>
    let dwdx := derivs2d w 0 s in
    let dwdy := derivs2d w 1 s in
    let dFdx := derivs2d (fun s => flux (w s) 0) 0 s in
    let dGdy := derivs2d (fun s => flux (w s) 1) 1 s in
    Bdwdx <- Bdot o (w s) dwdx 0 ;;
    Bdwdy <- Bdot o (w s) dwdy 1 ;;
    Ok (fun k => w s k - dt / 2 * ((dFdx k + Bdwdx k) / dX 0%nat + (dGdy k + Bdwdy k) / dX 1%nat))%R).

Variable valid : nodal -> bool.
(** one cell *)
Definition mid (ndim : nat) (l : list num) : res (option nodal) :=
  match view l with
  | Some w => if valid w then r <- match ndim with 1 => mid1 w | _ => mid2 w end ;; Ok (Some r) else Ok None
  | None => Ok None
  end.

Variables NODES WGHTS : nat -> R.
Variables (ENDVALS : nat -> nat -> R) (FLUX : nat).
Variables (SIG : nat -> nat -> R) (LAMS LAMC EPS : R) (inv : stencil -> (nat -> R) -> nat -> R).
Variable prim : option ((num -> num) * (num -> num)).
(** one cell of ode_launcher, with the time step dt / 2 *)
Variable ode : num -> num.

(** steppers.cpp 50-66 *)
Definition split_step (HALF : bool) : buf num -> buf num -> buf bool -> list nat -> res (buf num) :=
  split_stepper (N o) SIG LAMS LAMC EPS inv prim (NO_CORNERS o) (option nodal)
    (fun ndim sources => center_num o ph WGHTS DERVALS dt dX ndim sources false) (fun ndim _ => face_num o ph NODES WGHTS ENDVALS FLUX dt dX ndim false)
    view mid ode HALF.
End Homog.
