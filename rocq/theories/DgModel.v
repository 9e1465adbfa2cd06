(** Model of /repo/code/cpp/src/solvers/dg (dg_matrices.cpp, dg1.cpp, dg2.cpp, initial_guess.cpp) and of the DG globals of
    /repo/code/cpp/src/etc/globals.cpp. Reals for doubles; a NaN makes a whole block [None]. *)
From Coq Require Import Reals.
From Verif Require Import Base Options Sum PolyModel EqModel FvModel FvBody WenoModel.
Import List ListNotations.
Open Scope nat_scope.

(** Eigen's Mat: an entry never written is uninitialised, an index out of range is undefined behaviour *)
Record mtx := mkmtx { mrows : nat; mcols : nat; mdat : buf R }.
Definition mget (m : mtx) (i j : nat) : res R :=
  if (Nat.ltb i (mrows m) && Nat.ltb j (mcols m))%bool then rd (mdat m) (i * mcols m + j) else UB "index out of range".
Definition mset (m : mtx) (i j : nat) (x : R) : res mtx :=
  if (Nat.ltb i (mrows m) && Nat.ltb j (mcols m))%bool
  then b <- wr (mdat m) (i * mcols m + j) x ;; Ok (mkmtx (mrows m) (mcols m) b) else UB "index out of range".

(** dg_matrices.cpp 6-20 with a = mats[idx-2], b = mats[idx-1] *)
Definition kron2 (a b : mtx) : res mtx :=
  let m0 := mrows a in let m1 := mrows b in let n0 := mcols a in let n1 := mcols b in
  for_loop m0 0 (fun i0 ret =>
    for_loop m1 0 (fun i1 ret =>
      let i := i0 * m1 + i1 in
      for_loop n0 0 (fun j0 ret =>
        for_loop n1 0 (fun j1 ret =>
          let j := j0 * n1 + j1 in
          x <- mget a i0 j0 ;; y <- mget b i1 j1 ;; mset ret i j (x * y)%R) ret) ret) ret)
    (mkmtx (m0 * m1) (n0 * n1) (balloc (m0 * m1 * (n0 * n1)))).

(** dg_matrices.cpp 4-28: the recursion on the shortened vector; [l] is the vector without its last entry, reversed *)
Fixpoint kron_rec (last : mtx) (l : list mtx) : res mtx :=
  match l with
  | [] => UB "mats[-1]"
  | a :: l' => ret <- kron2 a last ;; match l' with [] => Ok ret | _ => kron_rec ret l' end
  end.
Definition kron (mats : list mtx) : res mtx :=
  match rev mats with [] => UB "mats[-2]" | b :: l => kron_rec b l end.

(** the square matrix with entries f *)
Definition full (n : nat) (f : nat -> nat -> R) : mtx := mkmtx n n (mkbuf (n * n) (fun a => Some (f (a / n) (a mod n)))).
(** WGHTS.asDiagonal() *)
Definition diagonal (n : nat) (w : nat -> R) : mtx := full n (fun i j => if Nat.eqb i j then w i else 0%R).

Open Scope R_scope.

(** dg_matrices.cpp 30-38 *)
Definition end_value_products (basis : list poly) (i j : nat) : R :=
  evaluate (nth i basis []) 1 * evaluate (nth j basis []) 1.
(** dg_matrices.cpp 40-53 *)
Definition derivative_products (basis : list poly) (nodes wghts : nat -> R) (i j : nat) : res R :=
  if Nat.eqb i j then Ok ((evaluate (nth i basis []) 1 ^ 2 - evaluate (nth i basis []) 0 ^ 2) / 2)
  else p <- diff 1 (nth j basis []) ;; Ok (wghts i * evaluate p (nodes i)).

Section Dg.
Variable o : options.
Variable ph : phys.
Variables WGHTS : nat -> R.
Variables ENDVALS DERVALS DG_DER : nat -> nat -> R.
Notation N := (N o).
Notation flux := (flux o ph (fun _ => 0)).

(** globals.cpp 40-42 *)
Definition DG_MAT (DG_END : nat -> nat -> R) (i j : nat) : R := DG_END i j - DG_DER j i.
Variable DG_M : nat -> nat -> R.     (* DG_MAT *)

(** a matrix whose rows are computed one by one *)
Definition rows (n : nat) (f : nat -> res vec) : res nodal :=
  l <- collect n f ;; Ok (fun r => nth r l (fun _ => 0)).

(** dg1.cpp 8-35; row ind = t * N + i *)
Definition rhs1 (dt dx : R) (q Ww : nodal) : res nodal :=
  rows (N * N) (fun ind =>
    let t := (ind / N)%nat in let i := (ind mod N)%nat in
    let dq_dx := fun k => derivs1d o DERVALS (fun s => q (t * N + s)%nat) i k / dx in
    tmp <- Bdot o (q ind) dq_dx 0 ;;
    Ok (fun k =>
      let r := (source ph (q ind) k - tmp k) * (WGHTS t * WGHTS i) in
      let r := r - WGHTS t * rsum N (fun j => DG_DER i j * flux (q (t * N + j)%nat) 0 k) / dx in
      r * dt + Ww ind k)).

(** dg1.cpp 37-49 *)
Definition obj1 (dt dx : R) (Ww q : nodal) : res nodal :=
  tmp <- rhs1 dt dx q Ww ;;
  Ok (fun ind k => let t := (ind / N)%nat in let i := (ind mod N)%nat in
        tmp ind k - rsum N (fun m => DG_M t m * WGHTS i * q (m * N + i)%nat k)).

(** dg1.cpp 51-56 *)
Definition initial_condition1 (w : nodal) : nodal := fun ind k =>
  let t := (ind / N)%nat in let i := (ind mod N)%nat in ENDVALS 0 t * WGHTS i * w i k.

(** dg2.cpp 8-71; row ind = (t * N + i) * N + j *)
Definition rhs2 (dt dx dy : R) (q Ww : nodal) : res nodal :=
  rows (N * N * N) (fun ind =>
    let t := (ind / (N * N))%nat in let i := (ind / N mod N)%nat in let j := (ind mod N)%nat in
    let qt := fun s => q (t * (N * N) + s)%nat in
    let dq_dx := fun k => derivs2d o DERVALS qt 0 (i * N + j)%nat k / dx in
    let dq_dy := fun k => derivs2d o DERVALS qt 1 (i * N + j)%nat k / dy in
    tmpx <- Bdot o (q ind) dq_dx 0 ;;
    tmpy <- Bdot o (q ind) dq_dy 1 ;;
    let F2 := fun a k => WGHTS (a mod N) * flux (q a) 0 k in
    let G2 := fun b r k => rsum N (fun m => DG_DER r m * flux (q (b * N + m)%nat) 1 k) in
    Ok (fun k =>
      let r := (source ph (q ind) k - (tmpx k + tmpy k)) * (WGHTS t * WGHTS i * WGHTS j) in
      let r := r - rsum N (fun j' => WGHTS t * DG_DER i j' * F2 ((t * N + j') * N + j)%nat k / dx) in
      let r := r - WGHTS t * WGHTS i * G2 (t * N + i)%nat j k / dy in
      r * dt + Ww ind k)).

(** dg2.cpp 73-90 *)
Definition obj2 (dt dx dy : R) (Ww q : nodal) : res nodal :=
  tmp <- rhs2 dt dx dy q Ww ;;
  Ok (fun ind k => let t := (ind / (N * N))%nat in let i := (ind / N mod N)%nat in let j := (ind mod N)%nat in
        tmp ind k - rsum N (fun m => DG_M t m * WGHTS i * WGHTS j * q ((m * N + i) * N + j)%nat k)).

(** dg2.cpp 92-100 *)
Definition initial_condition2 (w : nodal) : nodal := fun ind k =>
  let t := (ind / (N * N))%nat in let i := (ind / N mod N)%nat in let j := (ind mod N)%nat in
  ENDVALS 0 t * WGHTS i * WGHTS j * w (i * N + j)%nat k.

(** ** The predictor in one cell *)
Variables (dt : R) (dX : nat -> R).
Variables (DG_IT : nat) (DG_TOL : R).
(** DG_U1.solve, DG_U2.solve (Eigen's QR), by dimension *)
Variable solve : nat -> nodal -> nodal.
(** newton_krylov.cpp nonlin_solve *)
Variable nonlin_solve : (option nodal -> res (option nodal)) -> option nodal -> res (option nodal).
(** where the constitutive functions give no NaN *)
Variable valid : nodal -> bool.
(** what [(absDiff > DG_TOL * (1 + |q0|)).any()] gives when there is a NaN: that depends on which entries are NaN *)
Variable nan_far : option nodal -> option nodal -> bool.
Variables (STIFF STIFF_IG : bool).

Definition rhs (ndim : nat) (q Ww : nodal) : res nodal :=
  match ndim with 1%nat => rhs1 dt (dX 0%nat) q Ww | _ => rhs2 dt (dX 0%nat) (dX 1%nat) q Ww end.
Definition obj (ndim : nat) (Ww q : nodal) : res nodal :=
  match ndim with 1%nat => obj1 dt (dX 0%nat) Ww q | _ => obj2 dt (dX 0%nat) (dX 1%nat) Ww q end.
Definition initial_condition (ndim : nat) (w : nodal) : nodal :=
  match ndim with 1%nat => initial_condition1 w | _ => initial_condition2 w end.

Definition lift (f : nodal -> res nodal) (q : option nodal) : res (option nodal) :=
  match q with
  | Some q => if valid q then r <- f q ;; Ok (Some r) else Ok None
  | None => Ok None
  end.

(** initial_guess.cpp 4-13: the same block for every time node *)
Definition standard_initial_guess (ndim : nat) (w : nodal) : nodal := fun ind => w (ind mod (N ^ ndim))%nat.
(** initial_guess.cpp 15-18: assigns w, which has N^ndim rows, to blocks of N rows *)
Definition stiff_initial_guess (ndim : nat) (w : option nodal) : res (option nodal) :=
  if Nat.eqb (N ^ ndim) N then Ok (option_map (standard_initial_guess ndim) w) else UB "block size mismatch".

(** dg1.cpp 97, dg2.cpp 149: some entry has |q1 - q0| > tol * (1 + |q0|) *)
Definition gtb (x y : R) : bool := if Rlt_dec y x then true else false.
Definition far (n : nat) (q1 q0 : option nodal) : bool :=
  match q1, q0 with
  | Some a, Some b =>
    existsb (fun r => existsb (fun k => gtb (Rabs (a r k - b r k)) (DG_TOL * (1 + Rabs (b r k)))) (seq 0 (V o))) (seq 0 n)
  | _, _ => nan_far q1 q0
  end.

(** dg1.cpp 91-110, dg2.cpp 142-167: [None] when the loop ends without assigning the cell *)
Fixpoint picard (n : nat) (count : nat) (step : option nodal -> res (option nodal)) (nan_case : res (option nodal))
    (q0 : option nodal) : res (option (option nodal)) :=
  match count with
  | O => Ok None
  | S c =>
    q1 <- step q0 ;;
    if far n q1 q0 then picard n c step nan_case q1
    else match q1 with
         | None => r <- nan_case ;; Ok (Some r)
         | Some q => Ok (Some (Some q))
         end
  end.

(** the N^ndim rows of wh of the cell *)
Definition all_finite (l : list num) : bool := forallb (fun x => match x with Some _ => true | None => false end) l.
Definition view (l : list num) : option nodal :=
  if all_finite l then Some (fun s => match nth s l None with Some v => v | None => fun _ => 0 end) else None.

(** dg1.cpp 69-111, dg2.cpp 116-168 *)
Definition predictor_cell (ndim : nat) (l : list num) : res (option (option nodal)) :=
  let n := (N ^ (ndim + 1))%nat in
  let w := view l in
  let Ww := option_map (initial_condition ndim) w in
  let objective := fun q => match Ww with Some Ww => lift (obj ndim Ww) q | None => Ok None end in
  q0 <- (if STIFF_IG then stiff_initial_guess ndim w else Ok (option_map (standard_initial_guess ndim) w)) ;;
  if STIFF then q <- nonlin_solve objective q0 ;; Ok (Some q)
  else picard n DG_IT
         (fun q => match Ww with Some Ww => lift (fun q => r <- rhs ndim q Ww ;; Ok (solve ndim r)) q | None => Ok None end)
         (q <- stiff_initial_guess ndim w ;; nonlin_solve objective q) q0.

(** the time blocks as the finite volume update reads them *)
Definition time_blocks (ndim : nat) (q : option nodal) (t : nat) : option nodal :=
  option_map (fun q s => q (t * N ^ ndim + s)%nat) q.
Definition Phi (ndim : nat) (l : list num) : res (option (nat -> option nodal)) :=
  r <- predictor_cell ndim l ;; Ok (option_map (time_blocks ndim) r).
End Dg.
