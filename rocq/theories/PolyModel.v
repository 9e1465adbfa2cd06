(** Model of /repo/code/cpp/src/scipy/poly.cpp and solvers/poly/basis.cpp.
    A [poly] is its coefficient vector (list, lowest degree first); doubles are reals. *)
From Coq Require Import Reals List Lia.
From Verif Require Import Base Sum.
Import List ListNotations.
Open Scope nat_scope.

Definition poly := list R.
(** [coef(i)] *)
Definition co (p : poly) (i : nat) : R := nth i p 0%R.

(** poly.cpp 6-14 *)
Definition integrate (p : poly) : poly :=
  0%R :: map (fun i => (co p (i - 1) / INR i)%R) (seq 1 (length p)).

(** poly.cpp 16-23. [Vec ret(n - 1)] with n = 0 is a negative size. *)
Definition differentiate (p : poly) : res poly :=
  match length p with
  | 0 => UB "Vec of negative size"
  | S m => Ok (map (fun i => (co p (i + 1) * INR (i + 1))%R) (seq 0 m))
  end.

(** poly.cpp 25-32 *)
Definition evaluate (p : poly) (x : R) : R := rsum (length p) (fun i => (co p i * x ^ i)%R).

(** poly.cpp 34-44. [Vec ret(n1 + n2 - 1)] with both empty is a negative size; with one empty the result has
    [n2 - 1] zeros. [ret(i+j) += p1(i) * p2(j)] over all i, j, as the coefficient sum. *)
Definition multiply (p1 p2 : poly) : res poly :=
  match length p1 + length p2 with
  | 0 => UB "Vec of negative size"
  | S m => Ok (map (fun k => rsum (length p1) (fun i => if (i <=? k) && (k - i <? length p2) then (co p1 i * co p2 (k - i))%R else 0%R)) (seq 0 m))
  end.

(** poly.cpp 55-60 *)
Fixpoint diff (n : nat) (p : poly) : res poly :=
  match n with O => Ok p | S m => p' <- differentiate p ;; diff m p' end.

(** poly.cpp 64 *)
Definition pdiv (p : poly) (c : R) : poly := map (fun a => (a / c)%R) p.

(** basis.cpp 23-44 *)
Definition lagrange (x : list R) (i : nat) : res poly :=
  for_loop (length x) 0 (fun j p =>
    if Nat.eqb j i then Ok p
    else q <- multiply p [(- nth j x 0)%R; 1%R] ;; Ok (pdiv q (nth i x 0 - nth j x 0)%R)) [1%R].

(** basis.cpp 46-53, on given nodes *)
Definition basis_polys (nodes : list R) : res (list poly) :=
  fold_res (fun i acc => p <- lagrange nodes i ;; Ok (acc ++ [p])) (seq 0 (length nodes)) [].

(** basis.cpp 55-63: row 0 holds the values at 0, row 1 the values at 1 *)
Definition end_values (basis : list poly) (e j : nat) : R := evaluate (nth j basis []) (if Nat.eqb e 0 then 0%R else 1%R).

(** basis.cpp 65-72 *)
Definition derivative_values (basis : list poly) (nodes : list R) (i j : nat) : res R :=
  p <- diff 1 (nth j basis []) ;; Ok (evaluate p (nth i nodes 0%R)).
