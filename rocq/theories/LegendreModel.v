(** Model of /repo/code/cpp/src/scipy/legendre.cpp. Doubles are reals. Vectors are lists; the functions that act
    elementwise on the vector of arguments x are written for one argument. *)
From Coq Require Import Reals List Lia.
From Verif Require Import Base Sum PolyModel.
Import List ListNotations.
Open Scope nat_scope.

(** legendre.cpp 46-54, the loop [for i = 5 .. nc] (k = number of iterations left). [nd] before the decrement. *)
Fixpoint clenshaw (c : list R) (x : R) (k i nd : nat) (c00 c11 : R) : R * R :=
  match k with
  | O => (c00, c11)
  | S k' =>
    let nd := nd - 1 in
    let c00' := (co c (length c - i) - c11 * INR (nd - 1) / INR nd)%R in
    let c11' := (c00 + c11 * x * INR (2 * nd - 1) / INR nd)%R in
    clenshaw c x k' (S i) nd c00' c11'
  end.

(** legendre.cpp 5-58. An empty coefficient vector is read at index -3. *)
Definition legval (x : R) (c : list R) : res R :=
  match c with
  | [] => UB "coefficient out of range"
  | [a] => Ok a
  | [a; b] => Ok (a + b * x)%R
  | _ =>
    let nc := length c in
    let nd := nc - 1 in
    let c0 := (co c (nc - 3) - co c (nc - 1) * INR (nd - 1) / INR nd)%R in
    let c10 := (co c (nc - 2) + co c (nc - 1) * x * INR (2 * nd - 1) / INR nd)%R in
    if Nat.eqb nc 3 then Ok (c0 + c10 * x)%R
    else
      let nd := nd - 1 in
      let c00 := (co c (nc - 4) - c10 * INR (nd - 1) / INR nd)%R in
      let c11 := (c0 + c10 * x * INR (2 * nd - 1) / INR nd)%R in
      let '(c00, c11) := clenshaw c x (nc + 1 - 5) 5 nd c00 c11 in
      Ok (c00 + c11 * x)%R
  end.

(** legendre.cpp 118-121, the loop [for j = n; j > 2; j--] (k = j - 2 iterations left), on c and der as functions *)
Fixpoint legder_loop (k : nat) (c der : nat -> R) : (nat -> R) * (nat -> R) :=
  match k with
  | O => (c, der)
  | S k' =>
    let j := k + 2 in
    legder_loop k' (upd c (j - 2) (c (j - 2)%nat + c j)%R) (upd der (j - 1) (INR (2 * j - 1) * c j)%R)
  end.

(** legendre.cpp 90-127. Fewer than two coefficients: [der(0) = c(1)] is out of range (and der is empty or of
    negative size). *)
Definition legder (c : list R) : res (list R) :=
  let n := length c - 1 in
  if Nat.leb (length c) 1 then UB "c(1) out of range"
  else
    let '(cf, der) := legder_loop (n - 2) (co c) (fun _ => 0%R) in
    let der := if Nat.ltb 1 n then upd der 1 (3 * cf 2%nat)%R else der in
    let der := upd der 0 (cf 1%nat) in
    Ok (map der (seq 0 n)).

(** legendre.cpp 60-88: entry (i,j) of the n x n matrix; [mat(1 + i(n+1))] is (i,i+1) and [mat(n + i(n+1))] is
    (i+1,i) in row-major storage *)
Definition legcompanion (n i j : nat) : R :=
  let scl k := (1 / sqrt (INR (2 * k + 1)))%R in
  if Nat.eqb j (i + 1) then (INR (i + 1) * scl i * scl (i + 1)%nat)%R
  else if Nat.eqb i (j + 1) then (INR (j + 1) * scl j * scl (j + 1)%nat)%R
  else 0%R.

(** [v = (v + s * v.reverse()) / 2] (legendre.cpp 180-181; s = 1 for w, -1 for x). Eigen evaluates the right side
    lazily into v itself: coefficients already stored are read back by the reversed expression. Coefficients are
    processed in packets of [P]: a packet is read entirely, then stored; the tail is processed one by one. *)
Definition sym_packet (s : R) (n : nat) (lo len : nat) (v : nat -> R) : nat -> R :=
  fun i => if Nat.leb lo i && Nat.ltb i (lo + len) then ((v i + s * v (n - 1 - i)%nat) / 2)%R else v i.
Fixpoint sym_packets (s : R) (n P lo k : nat) (v : nat -> R) : nat -> R :=
  match k with O => v | S k' => sym_packets s n P (lo + P) k' (sym_packet s n lo P v) end.
Definition sym_assign (s : R) (P n : nat) (v : nat -> R) : nat -> R :=
  sym_packets s n 1 (n / P * P) (n - n / P * P) (sym_packets s n P 0 (n / P) v).

(** lpNorm<Infinity> *)
Fixpoint maxabs (n : nat) (v : nat -> R) : R := match n with O => 0%R | S m => Rmax (maxabs m v) (Rabs (v m)) end.

(** legendre.cpp 129-190. [eig] is the vector of eigenvalues Eigen returns; the quotients are real division, so the
    theorems about this function assume nonzero denominators explicitly. *)
Definition leggauss (P : nat) (deg : nat) (eig : nat -> R) : res ((nat -> R) * (nat -> R)) :=
  let c := repeat 0%R deg ++ [1%R] in
  dc <- legder c ;;
  ' (dy, df) <- for_loop deg 0 (fun i '(dy, df) =>
      a <- legval (eig i) c ;; b <- legval (eig i) dc ;; Ok (upd dy i a, upd df i b)) (fun _ => 0%R, fun _ => 0%R) ;;
  let x i := (eig i - dy i / df i)%R in
  fm <- for_loop deg 0 (fun i fm => a <- legval (x i) (tl c) ;; Ok (upd fm i a)) (fun _ => 0%R) ;;
  let fn := maxabs deg fm in
  let dn := maxabs deg df in
  let w i := (1 / (fm i / fn * (df i / dn)))%R in
  let w := sym_assign 1 P deg w in
  let x := sym_assign (-1) P deg x in
  let s := rsum deg w in
  Ok (x, fun i => (w i * (2 / s))%R).

(** basis.cpp 7-21 *)
Definition scaled_nodes (x : nat -> R) : nat -> R := fun i => ((x i + 1) / 2)%R.
Definition scaled_weights (w : nat -> R) : nat -> R := fun i => (w i / 2)%R.
