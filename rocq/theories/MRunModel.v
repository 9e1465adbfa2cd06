(** Model of a whole run with several materials (/repo/code/cpp/src/solvers/iterator.cpp 85-170 with LSET > 0): the program of RunModel.v with the ghost filling of FillModel.v
    (multi/fill.cpp) and the star states of RiemannModel.v (system/multi/riemann.cpp). *)
From Coq Require Import Reals.
From Verif Require Import Base Options FmmModel LevelSetModel FillModel RiemannModel UtilsModel IterModel.
Import List ListNotations.
Open Scope nat_scope.

(** riemann.cpp 203-233 as fill.cpp 191 calls it: [n] has one component for each dimension of the grid. [of] gives the parts of a material that RiemannModel.v uses. *)
Definition run_star (o : options) (stick relaxation : bool) (TOL : R) (inverse : nat -> (nat -> nat -> R) -> nat -> nat -> R) (nan : vec -> bool) (of : matpar -> material)
    (ndim : nat) (QL QR : vec) (ML MR : matpar) (dt : R) (n : nat -> R) : res vec :=
  ' (Q, _) <- left_star_state o stick relaxation TOL inverse nan QL QR (of ML) (of MR) dt (map n (seq 0 ndim)) ;; Ok Q.

(** a field as an array of cells, and back; a cell nobody wrote is an error *)
Definition cells_buf (g : grid) : buf vec := mkbuf (length g) (fun a => nth_error g a).
Fixpoint take_vecs (b : buf vec) (n a : nat) : res grid :=
  match n with
  | O => Ok []
  | S n => x <- rd b a ;; l <- take_vecs b n (S a) ;; Ok (x :: l)
  end.
Definition buf_cells (b : buf vec) : res grid := take_vecs b (blen b) 0.
Fixpoint map_res {A B} (f : A -> res B) (l : list A) : res (list B) :=
  match l with
  | [] => Ok []
  | a :: l => b <- f a ;; l <- map_res f l ;; Ok (b :: l)
  end.

Section Fill.
Variable o : options.
Variable star : vec -> vec -> matpar -> matpar -> R -> (nat -> R) -> res vec.
Variables (nX : list nat) (dX : list R) (MPs : list matpar).
(** iterator.cpp 116-117; FillModel.v reads the state as a function of the cell, here for the cells the state has *)
Definition run_fill (grids : list grid) (masks : list (list bool)) (u : grid) (dt : R) : res (grid * list grid * list (list bool)) :=
  let cell (u : grid) i := nth i u (fun _ => 0%R) in
  ' (u', gs, ms) <- fill_ghost_cells o star (fun d => nth d dX 1%R) nX MPs dt dX (length u) (cell u)
      (map cells_buf grids) (map (fun k i => nth i k false) masks) ;;
  gs <- map_res buf_cells gs ;;
  Ok (map u' (seq 0 (length u)), gs, map (fun m => map m (seq 0 (length u))) ms).
End Fill.
