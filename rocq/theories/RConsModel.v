(** Model of /repo/code/cpp/src/system/multi: eigenvecs.cpp and the constraint matrix of riemann.cpp. *)
From Coq Require Import Reals ZArith.
From Verif Require Import Base Options Sum Mat3 PhysModel PhysInst RiemannModel.
Import List ListNotations.
Open Scope R_scope.

Section Cons.
Variable o : options.
Variable P : par.
Variable sm : vec -> R * R * R.
(** Eigen: the inverse of an n x n matrix, the solution X of M X = b for a 5 x 5 matrix M and a right-hand side of the given
    number of columns (colPivHouseholderQr), and the real parts of the eigenvalues and of the columns of eigenvectors of an
    n x n matrix (EigenSolver). External. *)
Variable inverse : nat -> mat -> mat.
Variable qrsolve : nat -> mat -> mat -> mat.
Variable eigensolve : nat -> mat -> vec * mat.
Notation MP := (prm P).
Notation n1 := (n1 o).
Definition zero_mat : mat := fun _ _ => 0.
Definition eye : mat := fun i j => if Nat.eqb i j then 1 else 0.
Definition mm (n : nat) (A B : mat) : mat := fun i j => rsum n (fun k => A i k * B k j).

(** eigenvecs.h 7-10 *)
Definition n3 : nat := 8 + b2n (THERMAL o).
Definition n4 : nat := 11 + b2n (THERMAL o).
(** eigenvecs.cpp 10-83. The eigenvalues are taken to be positive: the entries are not finite otherwise. The matrix needs the
    rows and columns 0..13 (0..14 with heat conduction), which exist when the state has a distortion. *)
Definition eigen (Q : vec) (d : nat) : res mat :=
  if negb (VISCOUS o) then UB "eigen: block out of range" else
  let r := Q 0%nat in let p := pressure o P sm Q in let sr := dsigmadrho P Q d in
  let A := get_A Q in let G := mmul (mtr A) A in let AdG := AdevG A in
  let Pi k : mat := fun i j => dsigmadA r (b02 MP) A G AdG d i j k in
  let X1 := Xi1 o P r p Q d in let X2 := Xi2 o P sm r p Q d in
  let Xi := mm 5 X1 X2 in
  let Q_1 := snd (eigensolve n1 Xi) in
  let l := fst (eigensolve n1 Xi) in
  let tmp1 : mat := fun i j => / 2 * mm n1 X2 Q_1 i j * / l j in
  let tmp2 : mat := fun i j => / 2 * Q_1 i j * sqrt (/ l j) in
  let M := setblock zero_mat 0 0 5 n1 tmp1 in
  let M := setblock M 0 n1 5 n1 tmp1 in
  let M := setblock M 11 0 n1 n1 tmp2 in
  let M := setblock M 11 n1 n1 n1 (fun i j => - tmp2 i j) in
  Ok (if THERMAL o then
    let Tr := dTdrho MP r p in let Tp := dTdp MP r in
    let b i := Tp * sr i + (if Nat.eqb i 0 then Tr else 0) in
    let PA := inverse 3 (mm 3 (Pi 0%nat) A) in
    let c := 1 / (rsum 3 (fun k => PA d k * b k) + Tp / r) in
    let M := setblock M 0 8 1 1 (fun _ _ => - c * Tp) in
    let M := setblock M 1 8 1 1 (fun _ _ => c * Tr) in
    let M := setblock M 2 8 3 1 (fun i _ => c * rsum 3 (fun k => inverse 3 (Pi 0%nat) i k * b k)) in
    fun i j => if (Nat.leb 15 i && Nat.ltb i (V o) && Nat.eqb i j)%bool then 1 else M i j
  else
    let I1 := inverse 3 (Pi 0%nat) in
    let M := setblock M 0 6 1 1 (fun _ _ => 1) in
    let M := setblock M 1 7 1 1 (fun _ _ => 1) in
    let M := setblock M 2 6 3 1 (fun i _ => - rsum 3 (fun k => I1 i k * sr k)) in
    let M := setblock M 2 7 3 1 (fun i _ => I1 i 0%nat) in
    let M := setblock M 2 n3 3 3 (fun i j => - mm 3 I1 (Pi 1%nat) i j) in
    let M := setblock M 2 n4 3 3 (fun i j => - mm 3 I1 (Pi 2%nat) i j) in
    let M := setblock M 5 n3 6 6 (fun i j => if Nat.eqb i j then 1 else M (5 + i)%nat (n3 + j)%nat) in
    fun i j => if (Nat.leb 14 i && Nat.ltb i (V o) && Nat.eqb i j)%bool then 1 else M i j).

(** riemann.cpp 93-136: the 5 x 5 matrix of the conditions on (rho, p, first column of A) *)
Definition cons_tmp (Q : vec) : mat :=
  let r := Q 0%nat in let p := pressure o P sm Q in let sr := dsigmadrho P Q 0 in
  let Ainv := inverse 3 (get_A Q) in
  let Pi1 : mat := dsigmadA_dir P Q 0 in
  let M := setblock zero_mat 0 0 3 1 (fun i _ => - sr i) in
  let M := setblock M 0 1 1 1 (fun _ _ => 1) in
  let M := setblock M 0 2 3 3 (fun i j => - Pi1 i j) in
  if THERMAL o then
    let M := setblock M 3 0 1 1 (fun _ _ => dTdrho MP r p) in
    let M := setblock M 3 1 1 1 (fun _ _ => dTdp MP r) in
    let M := setblock M 4 0 1 1 (fun _ _ => - 1 / r) in
    setblock M 4 2 1 3 (fun _ j => Ainv 0%nat j)
  else
    let c0 := c_0 o P sm Q in
    let B := setblock zero_mat 0 0 1 1 (fun _ _ => r) in
    let B := setblock B 1 0 1 3 (fun _ j => sigma_col P Q 0 j - r * sr j) in
    let B := addblock B 1 0 1 1 (fun _ _ => r * c0 * c0) in
    let rhs : mat := fun i j => if Nat.eqb j 0 then - sr i else if Nat.eqb i 0 then 1 else 0 in
    let C := mm 3 (inverse 3 Pi1) rhs in
    let BA := mm 3 B Ainv in
    let Z : mat := fun i j => eye i j - mm 3 BA C i j in
    let W : mat := fun i j => if Nat.ltb j 2 then eye i j else - BA i (j - 2)%nat in
    setblock M 3 0 2 5 (mm 2 (inverse 2 Z) W).
(** riemann.cpp 79-154 *)
Definition riemann_constraints (Q : vec) (sgn : R) : res mat :=
  Rhat <- eigen Q 0 ;;
  let r := Q 0%nat in let p := pressure o P sm Q in
  let X := qrsolve n1 (cons_tmp Q) eye in
  let X1 := Xi1 o P r p Q 0 in let X2 := Xi2 o P sm r p Q 0 in
  let Xi := mm 5 X1 X2 in
  let Q_1 := snd (eigensolve n1 Xi) in
  let D_1 : mat := fun i j => if Nat.eqb i j then sqrt (/ fst (eigensolve n1 Xi) i) else 0 in
  let Q1 := inverse n1 Q_1 in
  let Y0 := mm n1 (mm n1 Q_1 D_1) Q1 in
  let M := setblock Rhat 0 0 5 n1 X in
  let M := setblock M 11 0 n1 n1 (fun i j => - sgn * mm 5 (mm n1 Y0 X1) X i j) in
  let M := setblock M 0 n1 11 n1 (fun _ _ => 0) in
  Ok (setblock M 11 n1 n1 n1 (fun i j => sgn * mm n1 Q_1 D_1 i j)).
End Cons.
