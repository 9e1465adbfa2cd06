(** Model of /repo/code/cpp/src/solvers/utils.cpp: corrections applied to the distortion after a time step.

    A field of [ncell * V] doubles is the list of its cells. Every loop of the file treats the cells one after the
    other and cell [i] reads and writes only its own components, so a loop is a map over the cells. *)
From Coq Require Import Reals ZArith.
From Verif Require Import Base Options Mat3 PhysModel.
Import List ListNotations.
Open Scope R_scope.

Definition grid := list vec.
(** a material: its parameters and whether its EOS is -1, the void *)
Record matpar := mkmatpar { mp_par : par; mp_void : bool }.

(** an access to an element of a container; out of range is undefined *)
Definition get {A} (l : list A) (i : nat) : res A :=
  match nth_error l i with Some x => Ok x | None => UB "index out of range" end.
(** [for (i = 0; i < ncell; i++)], each cell rewritten on its own *)
Fixpoint each_cell (f : nat -> vec -> res vec) (i : nat) (u : grid) : res grid :=
  match u with
  | [] => Ok []
  | q :: u => q' <- f i q ;; u' <- each_cell f (S i) u ;; Ok (q' :: u')
  end.

(** [cbrt] of the C++ library, on the reals *)
Definition cbrt (x : R) : R :=
  if Rlt_dec 0 x then Rpower x (/ 3) else if Rlt_dec x 0 then - Rpower (- x) (/ 3) else 0.

Section Utils.
Variable o : options.
(** Eigen's JacobiSVD: the singular values and the matrix V; external *)
Variable svd : mat3 -> vec3 * mat3.

(** [u.segment<9>(i*V + 5)]: with fewer than fourteen components per cell it runs into the next cell, or past the end
    of the array for the last one; both are reported as undefined. *)
Definition has_A (f : res vec) : res vec := if Nat.ltb (V o) 14 then UB "segment past the cell" else f.

(** 10-21 *)
Definition renorm_cell (MPs : list matpar) (_ : nat) (q : vec) : res vec :=
  m <- get MPs (get_material_index o q) ;;
  if mp_void m then Ok q
  else
    let r := q 0%nat in
    if Rlt_dec 0 r then
      has_A (let c := cbrt (r / (rho0 (prm (mp_par m)) * det3 (get_A q))) in
             Ok (setseg q 5 9 (fun k => q (5 + k)%nat * c)))
    else Ok q.
(** 6-23 *)
Definition renorm_distortion (MPs : list matpar) (u : grid) : res grid := each_cell (renorm_cell MPs) 0 u.

(** 29-40. The three segments are written one after the other from [s] and [A], which are copies. *)
Definition rotate_cell (MPs : list matpar) (_ : nat) (q : vec) : res vec :=
  m <- get MPs (get_material_index o q) ;;
  if mp_void m then Ok q
  else
    has_A (let '(s, Vm) := svd (get_A q) in
           let put (j : nat) (q : vec) := setseg q (5 + 3 * j) 3 (fun k => s j * Vm k j) in
           Ok (put 2%nat (put 1%nat (put 0%nat q)))).
(** 25-42 *)
Definition rotate_distortion (MPs : list matpar) (u : grid) : res grid := each_cell (rotate_cell MPs) 0 u.

(** 48-61. [A] is a view of the cell, read before the cell is overwritten. *)
Definition reset_cell (MPs : list matpar) (_ : nat) (q : vec) : res vec :=
  m <- get MPs (get_material_index o q) ;;
  if mp_void m then Ok q
  else
    has_A (let r := q 0%nat in
           let c := cbrt (r / rho0 (prm (mp_par m))) in
           let q := set1 q 1 (q 1%nat - r * E_2A (mp_par m) r (get_A q)) in
           let q := setseg q 5 9 (fun _ => 0) in
           let q := set1 q 5 c in
           let q := set1 q 9 c in
           Ok (set1 q 13 c)).
(** 44-63 *)
Definition reset_distortion (MPs : list matpar) (u : grid) : res grid := each_cell (reset_cell MPs) 0 u.

(** 69-82: is the cell contorted? If a singular value vanishes, [0/0] makes the mean a NaN and the comparison false. *)
Definition contorted_cell (tol : R) (q : vec) : bool :=
  let s := fst (svd (get_A q)) in
  let detA := s 0%nat * s 1%nat * s 2%nat in
  if Req_EM_T detA 0 then false
  else
    let detA1_3 := cbrt detA in
    let detA2_3 := detA1_3 * detA1_3 in
    let m0 := (s 0%nat * s 0%nat / detA2_3 + s 1%nat * s 1%nat / detA2_3 + s 2%nat * s 2%nat / detA2_3) / 3 in
    if Rlt_dec tol (m0 - 1) then true else false.
(** 65-85; every cell is looked at, whatever its material *)
Definition contorted (tol : R) (u : grid) : res bool :=
  if Nat.ltb (V o) 14 then match u with [] => Ok false | _ => UB "segment past the cell" end
  else Ok (existsb (contorted_cell tol) u).
End Utils.
