(** Model of a whole run (/repo/code/cpp/src/solvers/iterator.cpp 85-170): the main loop of IterModel.v with the ghost
    cells and masks of GridModel.v and the parallel steppers of StepperModel.v, AderModel.v and HomogModel.v. *)
From Coq Require Import Reals.
From Verif Require Import Base Options EqModel FvModel FvBody WenoModel DgModel GridModel StepperModel AderModel HomogModel UtilsModel IterModel StepperProps.
Import List ListNotations.
Open Scope nat_scope.

(** a field of numbers as an array of cells, and a mask as an array *)
Definition grid_buf (g : grid) : buf num := mkbuf (length g) (fun a => option_map Some (nth_error g a)).
Definition mask_buf (k : list bool) : buf bool := mkbuf (length k) (fun a => nth_error k a).
(** The cells of an array. A NaN in it leaves the model: IterModel.v works on numbers. In the C++ the run then ends at the
    end of the turn (iterator.cpp 160-164). *)
Fixpoint take_cells (b : buf num) (n a : nat) : res grid :=
  match n with
  | O => Ok []
  | S n => x <- rd b a ;; match x with None => Throw "NaN" | Some q => l <- take_cells b n (S a) ;; Ok (q :: l) end
  end.
Definition buf_grid (b : buf num) : res grid := take_cells b (blen b) 0.
(** every thread has done all its updates *)
Definition all_done {T} (c : config T) : bool := forallb (fun s => match fst s with [] => true | _ => false end) (fst c).

Section Run.
Variable o : options.
Variables NODES WGHTS : nat -> R.
Variables ENDVALS DERVALS : nat -> nat -> R.
Variables (SIG : nat -> nat -> R) (LAMS LAMC EPS : R) (inv : stencil -> (nat -> R) -> nat -> R).
Variable wallf : nat -> nat -> num -> num.
(** what the solvers do with a cell of a material: constitutive functions, conversion for PRIM_RECONSTRUCT, predictor
    (with the time step), where the constitutive functions give numbers, relaxation (with its duration) *)
Variable ph : matpar -> phys.
Variable prim : matpar -> option ((num -> num) * (num -> num)).
Variable Phi : matpar -> R -> nat -> list num -> res (option (nat -> option nodal)).
Variable valid : matpar -> nodal -> bool.
Variable ode : matpar -> R -> num -> num.
Variables (SPLIT HALF_STEP : bool) (FLUX : nat) (nX : list nat) (bt : nat -> nat) (dX : list R).
(** how many threads OpenMP gives to a parallel region, and the order in which they move *)
Variable team : matpar -> grid -> list bool -> R -> nat * list nat.

(** dX(d); only read for d < ndim *)
Definition spacing (d : nat) : R := nth d dX 1%R.

(** steppers.cpp 25-48, 68-94 *)
Definition run_para (m : matpar) (dt : R) (n : nat) (sched : list nat) (u ub : buf num) (mask : buf bool) : res (config num) :=
  if SPLIT then
    split_para (N o) SIG LAMS LAMC EPS inv (prim m) (NO_CORNERS o) (option nodal)
      (fun ndim sources => center_num o (ph m) WGHTS DERVALS dt spacing ndim sources false)
      (fun ndim _ => face_num o (ph m) NODES WGHTS ENDVALS FLUX dt spacing ndim false)
      view (mid o (ph m) DERVALS dt spacing (valid m)) (ode m (dt / 2)) HALF_STEP n sched u ub mask nX
  else
    ader_para (N o) SIG LAMS LAMC EPS inv (prim m) (NO_CORNERS o) (option nodal)
      (fun ndim sources => center_num o (ph m) WGHTS DERVALS dt spacing ndim sources true)
      (fun ndim _ => face_num o (ph m) NODES WGHTS ENDVALS FLUX dt spacing ndim true)
      (Phi m dt) n sched u ub mask nX.
(** iterator.cpp 129-139, for one material. [ub] and [maskb] are reused by the C++ from one call to the next; here they
    are fresh, so that a read of what an earlier call left there would be an error. A schedule that stops before the
    threads have finished is no execution. *)
Definition run_advance (m : matpar) (g : grid) (k : list bool) (dt : R) : res grid :=
  ub <- boundaries num (N o) wallf (grid_buf g) (balloc (extended_dimensions nX (N o))) nX bt ;;
  maskb <- extend_mask (mask_buf k) (balloc (extended_dimensions nX 1)) nX ;;
  let '(n, sched) := team m g k dt in
  c <- run_para m dt n sched (grid_buf g) ub maskb ;;
  if all_done c then buf_grid (snd c) else NoFuel.

Variable svd : Mat3.mat3 -> Mat3.vec3 * Mat3.mat3.
Variable speed : vec -> nat -> matpar -> option R.
Variable fill_ghost_cells : list grid -> list (list bool) -> grid -> R -> res (grid * list grid * list (list bool)).
Variable nan : grid -> bool.
Variable ROTATE_DISTORTION : bool.
Variables (CFL tf tol : R) (MPs : list matpar).
(** 85-170 *)
Definition program (fuel : nat) (u : grid) : res (state * bool) :=
  iterator o svd speed fill_ghost_cells run_advance nan ROTATE_DISTORTION dX CFL tf tol MPs fuel u.
End Run.
