(** Model of /repo/code/cpp/src/solvers/weno/{weno,weno_matrices}.cpp.
    Doubles are reals; a row of V doubles is a [vec]. A [num] is a row that may be NaN ([None]): the only source of
    NaN in this file is the quotient 0/0 of coeffs when no stencil is selected, and it hits every column at once. *)
From Coq Require Import Reals List Lia ZArith.
From Verif Require Import Base Options Sum PolyModel.
Import List ListNotations.
Open Scope nat_scope.

Definition num := option vec.

(** the four stencils; the matrices mL, mR, mCL, mCR of weno_matrices.cpp 12 *)
Inductive stencil := sL | sR | sCL | sCR.

Section Weno.
Variable N : nat.                                (* options.h N *)
Variable basis : nat -> poly.                    (* globals.cpp 17 *)
Variable SIG : nat -> nat -> R.                  (* globals.cpp 38 *)
Variables LAMS LAMC EPS : R.                     (* options.h *)
(** application of mLinv, mRinv, .. (N <= 4) or ML.solve, MR.solve, .. (N > 4): one linear solve with the matrix of
    the stencil, per column. Eigen's inverse and LU are not modelled. *)
Variable inv : stencil -> (nat -> R) -> nat -> R.

(** globals.h 11-12: floor and ceiling of (N-1)/2 *)
Definition FN2 := (N - 1) / 2.
Definition CN2 := N / 2.

(** weno_matrices.cpp 17-20: left end of the cell integrated by row i *)
Definition lo (s : stencil) (i : nat) : Z :=
  match s with
  | sL => Z.of_nat i - Z.of_nat N + 1
  | sR => Z.of_nat i
  | sCL => Z.of_nat i - Z.of_nat CN2
  | sCR => Z.of_nat i - Z.of_nat FN2
  end%Z.

(** weno_matrices.cpp 9-29 *)
Definition coefficient_matrix (s : stencil) (i j : nat) : R :=
  let Pj := integrate (basis j) in
  (evaluate Pj (IZR (lo s i + 1)) - evaluate Pj (IZR (lo s i)))%R.

(** weno_matrices.cpp 31-42. [ret] is a local, uninitialised matrix, accumulated into with [+=];
    [r0] is its content at entry ([None] : indeterminate). *)
Definition oscillation_indicator (r0 : buf R) : res (buf R) :=
  for_loop N 0 (fun i r => for_loop N 0 (fun j r => for_loop (N - 1) 1 (fun a r =>
      p <- diff a (basis i) ;; q <- diff a (basis j) ;; pq <- multiply p q ;;
      let P := integrate pq in
      old <- rd r (i * N + j) ;;
      wr r (i * N + j) (old + (evaluate P 1 - evaluate P 0))%R) r) r) r0.

(** first row of the data block of a stencil, weno.cpp 24-46 *)
Definition off (s : stencil) : nat := match s with sL => 0 | sR => N - 1 | sCL => FN2 | sCR => CN2 end.
Definition LAM (s : stencil) : R := match s with sL | sR => LAMS | _ => LAMC end.

(** weno.cpp 4-15, for one column *)
Definition weight (w : nat -> R) (lam : R) : R :=
  let tmp := (rsum N (fun i => rsum N (fun j => w i * SIG i j * w j)) + EPS)%R in
  let tmp2 := (tmp * tmp)%R in
  let tmp4 := (tmp2 * tmp2)%R in
  (lam / (tmp4 * tmp4))%R.

(** weno.cpp 54-71: the stencils that are added, in order *)
Definition selected (nx gap ind : Z) : list stencil :=
  (if (gap <=? ind)%Z then [sL] else []) ++
  (if (ind <=? nx - gap - 1)%Z then [sR] else []) ++
  (if Nat.ltb 2 N then
     (if (gap <=? ind + Z.of_nat FN2)%Z then [sCL] else []) ++
     (if (Nat.even N && (ind - Z.of_nat FN2 <=? nx - gap - 1)%Z)%bool then [sCR] else [])
   else []).

(** weno.cpp 23-49: stencil coefficients of column v *)
Definition wcol (data : nat -> vec) (s : stencil) (v : nat) : nat -> R := inv s (fun k => data (off s + k) v).
Definition ocol (data : nat -> vec) (s : stencil) (v : nat) : R := weight (wcol data s v) (LAM s).

(** weno.cpp 51-72 on finite data *)
Definition combine (data : nat -> vec) (sel : list stencil) (i v : nat) : R :=
  let num := fold_left (fun acc s => (acc + wcol data s v i * ocol data s v)%R) sel 0%R in
  let den := fold_left (fun acc s => (acc + ocol data s v)%R) sel 0%R in
  (num / den)%R.

Definition fin (x : num) : bool := match x with Some _ => true | None => false end.
Definition val (x : num) : vec := match x with Some v => v | None => fun _ => 0%R end.

(** weno.cpp 17-73: NaN when no stencil is selected, or when a selected stencil reads a NaN *)
Definition coeffs (data : nat -> num) (nx gap ind : Z) (i : nat) : num :=
  let sel := selected nx gap ind in
  if (match sel with [] => false | _ => true end && forallb (fun s => forallb (fun k => fin (data (off s + k))) (seq 0 N)) sel)%bool
  then Some (fun v => combine (fun k => val (data k)) sel i v)
  else None.

(** the block of 2N-1 rows starting at row i; every row must be in range *)
Fixpoint gather (rdu : nat -> res num) (n i : nat) : res (list num) :=
  match n with O => Ok [] | S m => x <- rdu i ;; l <- gather rdu m (S i) ;; Ok (x :: l) end.

(** weno.cpp 75-81. Rows of ub are read by [rdu]; row i*N + s of wh is written by [wrw]. *)
Definition weno1 (rdu : nat -> res num) (nx gap : nat) (wh : buf num) : res (buf num) :=
  for_loop nx 0 (fun i wh =>
    l <- gather rdu (2 * N - 1) i ;;
    for_loop N 0 (fun s wh => wr wh (i * N + s) (coeffs (fun k => nth k l None) (Z.of_nat nx) (Z.of_nat gap) (Z.of_nat i) s)) wh) wh.

(** row r of a view with [rows] rows *)
Definition vrow (b : buf num) (base stride rows : nat) (r : nat) : res num :=
  if Nat.ltb r rows then rd b (base + stride * r) else UB "row out of range".

(** weno.cpp 83-124. Strides are in rows of V doubles. [nocorners] is NO_CORNERS. *)
Definition weno2 (nocorners : bool) (wh ub : buf num) (nx ny : nat) : res (buf num) :=
  let W := ny + 2 * (N - 1) in
  ' (ux, _) <- for_loop W 0 (fun j '(ux, tmp0) =>
      let gap := if (nocorners && (Nat.ltb j N || negb (Z.of_nat j <? Z.of_nat W - Z.of_nat N)%Z))%bool then N else 0 in
      tmp0 <- weno1 (vrow ub j W (nx + 2 * (N - 1))) nx gap tmp0 ;;
      ux <- for_loop nx 0 (fun i ux => for_loop N 0 (fun s ux =>
          x <- rd tmp0 (i * N + s) ;; wr ux (j * N + i * (W * N) + s) x) ux) ux ;;
      Ok (ux, tmp0)) (balloc (nx * W * N), balloc (nx * N)) ;;
  ' (wh, _) <- for_loop nx 0 (fun i p => for_loop N 0 (fun ii '(wh, tmp1) =>
      let gap := if (nocorners && (Nat.eqb i 0 || Nat.eqb i (nx - 1)))%bool then 1 else 0 in
      tmp1 <- weno1 (vrow ux (i * W * N + ii) N W) ny gap tmp1 ;;
      wh <- for_loop ny 0 (fun j wh => for_loop N 0 (fun s wh =>
          x <- rd tmp1 (j * N + s) ;; wr wh ((i * ny * N + ii) * N + j * (N * N) + s) x) wh) wh ;;
      Ok (wh, tmp1)) p) (wh, balloc (ny * N)) ;;
  Ok wh.

(** weno.cpp 126-157. [prim] : the pair (Pvec, Cvec) when PRIM_RECONSTRUCT, else nothing; the elementwise conversion
    loops (lines 136-138, 154-156) run over the whole vectors. *)
Definition bmap (f : num -> num) (b : buf num) : buf num :=
  mkbuf (blen b) (fun a => match bdat b a with Some x => Some (f x) | None => None end).
Definition weno_launcher (prim : option ((num -> num) * (num -> num))) (nocorners : bool) (wh ub : buf num) (nX : list nat) : res (buf num) :=
  let ub_ := match prim with Some (p, _) => bmap p ub | None => ub end in
  wh <- match nX with
        | [nx] => weno1 (vrow ub_ 0 1 (blen ub_)) (nx + 2) 0 wh
        | [nx; ny] => weno2 nocorners wh ub_ (nx + 2) (ny + 2)
        | _ => Ok wh
        end ;;
  Ok (match prim with Some (_, c) => bmap c wh | None => wh end).
End Weno.
