(** Model of one whole ADER step (/repo/code/cpp/src/solvers/steppers.cpp 11-23): the loops of StepperModel.v with the
    reconstruction of WenoModel.v, the predictor of DgModel.v and the finite volume increments of FvBody.v.
    A block of the predictor and a cell of [u] may be NaN ([None]); an increment computed from a NaN block is NaN.
    Simplification: that a division by zero or a root of a negative number inside the constitutive functions gives NaN is
    not modelled in the finite volume update (the reals are total); the predictor has [valid] for it. *)
From Coq Require Import Reals.
From Verif Require Import Base Options Sum EqModel FvModel FvBody WenoModel DgModel StepperModel.
Import List ListNotations.
Open Scope nat_scope.

Definition nan_cell : num -> num := fun _ => None.

Section Ader.
Variable o : options.
Variable ph : phys.
Variables NODES WGHTS : nat -> R.
Variables ENDVALS DERVALS : nat -> nat -> R.
Variables (FLUX : nat) (dt : R) (dX : nat -> R).

(** fv.cpp 22-41, 69-94 on a block that may be NaN *)
Definition center_num (ndim : nat) (SOURCES : bool) (TIME : bool) (t : nat) (b : option nodal) : res (list (num -> num)) :=
  match b with
  | Some q => l <- match ndim with
                   | 1 => center1 o ph WGHTS DERVALS SOURCES TIME dt (dX 0) t q
                   | _ => center2 o ph WGHTS DERVALS SOURCES TIME dt (dX 0) (dX 1) t q
                   end ;; Ok (map (@option_map vec vec) l)
  | None => Ok (repeat nan_cell (N o ^ ndim))
  end.

(** fv.cpp 115-146, 193-264 on blocks that may be NaN *)
Definition face_num (ndim : nat) (TIME : bool) (d t : nat) (bl br : option nodal) : res ((num -> num) * (num -> num)) :=
  match bl, br with
  | Some l, Some r => ' (el, er) <- match ndim with
                                    | 1 => face1 o ph NODES WGHTS ENDVALS TIME FLUX dt (dX 0) d t l r
                                    | _ => face2 o ph NODES WGHTS ENDVALS TIME FLUX dt (dX 0) (dX 1) d t l r
                                    end ;; Ok (option_map el, option_map er)
  | _, _ => Ok (nan_cell, nan_cell)
  end.

Variables (SIG : nat -> nat -> R) (LAMS LAMC EPS : R) (inv : stencil -> (nat -> R) -> nat -> R).
Variable prim : option ((num -> num) * (num -> num)).

(** steppers.cpp 11-23 with any predictor *)
Definition ader_with (Phi : nat -> list num -> res (option (nat -> option nodal))) : buf num -> buf num -> buf bool -> list nat -> res (buf num) :=
  ader_stepper (N o) SIG LAMS LAMC EPS inv prim (NO_CORNERS o) (option nodal)
    (fun ndim sources => center_num ndim sources true) (fun ndim _ => face_num ndim true) Phi.

(** steppers.cpp 11-23 *)
Definition ader_step DG_DER DG_M DG_IT DG_TOL solve nonlin_solve valid nan_far STIFF STIFF_IG :=
  ader_with (Phi o ph WGHTS ENDVALS DERVALS DG_DER DG_M dt dX DG_IT DG_TOL solve nonlin_solve valid nan_far STIFF STIFF_IG).
End Ader.
