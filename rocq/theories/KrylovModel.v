(** Model of the Newton-Krylov solver: /repo/code/cpp/src/scipy/newton_krylov.cpp and lgmres.cpp.

    Doubles are real numbers and the functions given to the solver return finite values; where the code divides by zero
    the comment on the definition says what the model does.  A vector of [n] entries is a function on indices of which
    only the first [n] values count. *)
From Coq Require Import Reals.
From Verif Require Import Base Sum.
Import List ListNotations.
Open Scope R_scope.

Notation dv := (nat -> R).
Notation dmat := (nat -> nat -> R).

(** Eigen's vector operations *)
Definition vadd (a b : dv) : dv := fun i => a i + b i.
Definition vsub (a b : dv) : dv := fun i => a i - b i.
Definition vscal (c : R) (a : dv) : dv := fun i => c * a i.
Definition vzero : dv := fun _ => 0.
Section Dim.
Variable n : nat.
Definition vdot (a b : dv) : R := rsum n (fun i => a i * b i).
Definition vnorm (a : dv) : R := sqrt (vdot a a).
(** newton_krylov.cpp 7 *)
Fixpoint maxabs (k : nat) (x : dv) : R := match k with O => 0 | S k => Rmax (maxabs k x) (Rabs (x k)) end.
Definition maxnorm (x : dv) : R := maxabs n x.

(** globals.h 37: 2.2204460492503131e-16 *)
Definition mEPS : R := 22204460492503131 * / 10 ^ 32.
(** globals.h 38: the largest double *)
Definition INF : R := (2 - / 2 ^ 52) * 2 ^ 1023.

(** ** lgmres.cpp *)
Section Lgmres.
(** the operator and the preconditioner *)
Variables matvec psolve : dv -> dv.
(** Eigen: householderQ() and the upper triangle of matrixQR() of an r x c matrix; the solution of a square system by
    column-pivoting QR; both external *)
Variable qr : nat -> nat -> dmat -> dmat * dmat.
Variable lsolve : nat -> dmat -> dv -> dv.
(** what a vector holds after a division by zero (NaNs or infinities in the code): anything *)
Variable junk : dv.
Definition vdiv (v : dv) (c : R) : dv := if Req_EM_T c 0 then junk else vscal (/ c) v.

(** 46-51: the direction the basis is extended with; [vs] is never empty *)
Definition pick (ov : list dv) (vs0 : dv) (vs : list dv) (j : nat) : dv :=
  if Nat.ltb j (List.length ov + 1) then nth (j - 1) ov vzero
  else if Nat.eqb j (List.length ov + 1) then vs0 else last vs vs0.
(** 57-62: modified Gram-Schmidt *)
Fixpoint mgs (vs : list dv) (v : dv) : list R * dv :=
  match vs with
  | [] => ([], v)
  | w :: vs => let a := vdot w v in let '(h, v) := mgs vs (vsub v (vscal a w)) in (a :: h, v)
  end.
Record arnoldi := mkar { avs : list dv; aws : list dv; aQ : dmat; aR : dmat }.
(** 71-73: the matrix whose QR decomposition is updated *)
Definition extended (Q Rm : dmat) (h : list R) (j : nat) : dmat :=
  fun r c => if Nat.ltb c (j - 1) then rsum (j + 1) (fun k => Q r k * Rm k c) else nth r h 0.
(** assignment to a top left corner *)
Definition corner (M B : dmat) (r c : nat) : dmat := fun i k => if (Nat.ltb i r && Nat.ltb k c)%bool then B i k else M i k.
Definition set11 (M : dmat) (j : nat) : dmat := fun i k => if (Nat.eqb i j && Nat.eqb k j)%bool then 1 else M i k.
(** 46-77: one pass of the inner loop; also the new diagonal entry and the norm before orthogonalisation *)
Definition inner_step (ov : list dv) (vs0 : dv) (st : arnoldi) (j : nat) : arnoldi * R * R :=
  let z := pick ov vs0 (avs st) j in
  let v := psolve (matvec z) in
  let vn := vnorm v in
  let '(h, v) := mgs (avs st) v in
  let hj := vnorm v in
  let h := h ++ [hj] in
  let Q := set11 (aQ st) j in
  let '(Qn, Rn) := qr (j + 1) j (extended Q (aR st) h j) in
  (mkar (avs st ++ [vdiv v hj]) (aws st ++ [z]) (corner Q Qn (j + 1) (j + 1)) (corner (aR st) Rn (j + 1) j), hj, vn).
(** 43-85: [m] passes are left before [ind]; returns the state and the final [j] *)
Fixpoint inner (m : nat) (ov : list dv) (vs0 : dv) (tol res0 : R) (st : arnoldi) (j : nat) : arnoldi * nat :=
  match m with
  | O => (st, j - 1)%nat
  | S m =>
    let '(st, hj, vn) := inner_step ov vs0 st j in
    if Rle_dec (Rabs (aQ st 0%nat j) * res0) (tol * res0) then (st, j)
    else if Rle_dec hj (mEPS * vn) then (st, j)
    else inner m ov vs0 tol res0 st (S j)
  end.
(** 91-93 *)
Fixpoint combine (y : dv) (ws : list dv) (j : nat) : dv :=
  match ws with [] => vzero | w :: ws => vadd (vscal (y j) w) (combine y ws (S j)) end.
(** 99-100 *)
Definition recycle (k : nat) (ov : list dv) : list dv := skipn (List.length ov - k) ov.
Definition start : dmat := fun i k => if (Nat.eqb i 0 && Nat.eqb k 0)%bool then 1 else 0.
(** 29-93: the correction; without inner iterations [y(0)] and [ws[0]] do not exist *)
Definition correction (ov : list dv) (tol : R) (inner_m : nat) (r_outer : dv) : res dv :=
  let vs0 := vscal (-1) (psolve r_outer) in
  let res0 := vnorm vs0 in
  let vs0 := vdiv vs0 res0 in
  let '(st, j) := inner (inner_m + List.length ov) ov vs0 tol res0 (mkar [vs0] [] start (fun _ _ => 0)) 1 in
  let y := vscal res0 (lsolve j (aR st) (aQ st 0%nat)) in
  if Nat.eqb j 0 then UB "ws[0] of an empty vector" else Ok (combine y (aws st) 0).
(** 22-102; [m] outer iterations are left; also the number of corrections made *)
Fixpoint outer (m : nat) (b : dv) (x : dv) (ov : list dv) (tol b_norm : R) (inner_m outer_k : nat) : res (dv * list dv * nat) :=
  match m with
  | O => Ok (x, ov, 0%nat)
  | S m =>
    let r := vsub (matvec x) b in
    let rn := vnorm r in
    if Rle_dec rn (tol * b_norm) then Ok (x, ov, 0%nat)
    else if Rle_dec rn tol then Ok (x, ov, 0%nat)
    else
      dx <- correction ov tol inner_m r ;;
      let nx := vnorm dx in
      let ov := if Rlt_dec 0 nx then ov ++ [vscal (/ nx) dx] else ov in
      let ov := recycle outer_k ov in
      '(x, ov, k) <- outer m b (vadd x dx) ov tol b_norm inner_m outer_k ;; Ok (x, ov, S k)
  end.
(** 6-104 *)
Definition lgmres (b x : dv) (ov : list dv) (tol : R) (maxiter inner_m outer_k : nat) : res (dv * list dv * nat) :=
  let bn := vnorm b in
  let bn := if Req_EM_T bn 0 then 1 else bn in
  outer maxiter b x ov tol bn inner_m outer_k.
End Lgmres.

(** ** newton_krylov.cpp *)
Section Newton.
Variable F : dv -> dv.
Variable qr : nat -> nat -> dmat -> dmat * dmat.
Variable lsolve : nat -> dmat -> dv -> dv.
Variable junk : dv.

(** 9-13; rdiff is the square root of mEPS *)
Definition diff_step (x f : dv) : R := sqrt mEPS * Rmax 1 (maxnorm x) / Rmax 1 (maxnorm f).
(** 28-35 *)
Definition jac_matvec (x0 f0 : dv) (v : dv) : dv :=
  let nv := vnorm v in
  if Req_EM_T nv 0 then vscal 0 v
  else
    let sc := diff_step x0 f0 / nv in
    vscal (/ sc) (vsub (F (vadd x0 (vscal sc v))) f0).
(** 17-19, 37-46 *)
Definition jac_solve (x0 f0 : dv) (ov : list dv) (rhs : dv) (tol : R) : res (dv * list dv) :=
  '(x, ov, _) <- lgmres (jac_matvec x0 f0) (fun v => v) qr lsolve junk rhs (vscal 0 rhs) ov tol 1 30 10 ;; Ok (x, ov).

(** 53-76 *)
Record tols := mktols { f_tol : R; f_rtol : R; x_tol : R; x_rtol : R }.
Definition check (T : tols) (f0_norm : R) (f x dx : dv) : bool * R :=
  let f_norm := maxnorm f in let x_norm := maxnorm x in let dx_norm := maxnorm dx in
  let f0_norm := if Req_EM_T f0_norm 0 then f_norm else f0_norm in
  (if Req_EM_T f_norm 0 then true
   else if Rle_dec f_norm (f_tol T) then
     if Rle_dec (f_norm / f_rtol T) f0_norm then
       if Rle_dec dx_norm (x_tol T) then
         if Rle_dec (dx_norm / x_rtol T) x_norm then true else false
       else false
     else false
   else false, f0_norm).

(** the cache of the line search; [None] is a NaN.  [evals] counts the evaluations of the function (it is not in the code) *)
Record cache := mkcache { tmp_s : option R; tmp_phi : R; tmp_Fx : dv; evals : nat }.
(** 78-89, for an [s] that is a number *)
Definition phi (x dx : dv) (s : R) (c : cache) : R * cache :=
  let fresh :=
    let v := F (vadd x (vscal s dx)) in
    let p := vdot v v in (p, mkcache (Some s) p v (S (evals c))) in
  match tmp_s c with
  | Some t => if Req_EM_T s t then (tmp_phi c, c) else fresh
  | None => fresh
  end.
(** 93-94 *)
Definition c1 : R := / 10000.
Definition amin : R := / 100.
(** 106-125, fuelled.  If the quadratic coefficient [a] vanishes and [b >= 0], the trial step is 0/0: the function is
    evaluated at a NaN, every comparison with the NaN is false, it becomes the new step, and the loop ends.  The other
    divisions by zero are not followed: the model reports them. *)
Fixpoint armijo_loop (fuel : nat) (x dx : dv) (phi0 alpha1 phi_a0 phi_a1 : R) (c : cache) : res (R * cache) :=
  if Rlt_dec amin alpha1 then
    match fuel with
    | O => NoFuel
    | S fuel =>
      let factor := alpha1 * alpha1 * (alpha1 - 1) in
      if Req_EM_T factor 0 then UB "not modelled: division by zero" else
      let a := (phi_a1 - phi0 + phi0 * alpha1 - alpha1 * alpha1 * phi_a0) / factor in
      let b := (- (phi_a1 - phi0 + phi0 * alpha1) + alpha1 * alpha1 * alpha1 * phi_a0) / factor in
      if Req_EM_T a 0 then
        if Rlt_dec b 0 then UB "not modelled: infinite step"
        else Ok (1, mkcache None (tmp_phi c) (tmp_Fx c) (S (evals c)))
      else
        let alpha2 := (- b + sqrt (Rabs (b * b + 3 * a * phi0))) / (3 * a) in
        let '(phi_a2, c) := phi x dx alpha2 c in
        if Rle_dec phi_a2 (phi0 - c1 * alpha2 * phi0) then Ok (alpha2, c)
        else
          let alpha2 :=
            if Rlt_dec (alpha1 / 2) (alpha1 - alpha2) then alpha1 / 2
            else if Rlt_dec (1 - alpha2 / alpha1) (96 / 100) then alpha1 / 2 else alpha2 in
          armijo_loop fuel x dx phi0 alpha2 phi_a1 phi_a2 c
    end
  else Ok (1, c).
(** 91-127 *)
Definition scalar_search_armijo (fuel : nat) (x dx : dv) (phi0 : R) (c : cache) : res (R * cache) :=
  let '(phi_a0, c) := phi x dx 1 c in
  if Rle_dec phi_a0 (phi0 - c1 * phi0) then Ok (1, c)
  else if Req_EM_T (2 * phi_a0) 0 then UB "not modelled: division by zero"
  else
    let alpha1 := phi0 / (2 * phi_a0) in
    let '(phi_a1, c) := phi x dx alpha1 c in
    if Rle_dec phi_a1 (phi0 - c1 * alpha1 * phi0) then Ok (alpha1, c)
    else armijo_loop fuel x dx phi0 alpha1 phi_a0 phi_a1 c.
(** 129-141: the new point and the function there; also the step and the number of evaluations *)
Definition line_search (fuel : nat) (x Fx dx : dv) : res (dv * dv * R * nat) :=
  let p := vdot Fx Fx in
  '(s, c) <- scalar_search_armijo fuel x dx p (mkcache (Some 0) p Fx 0) ;;
  let x := vadd x (vscal s dx) in
  match tmp_s c with
  | Some t => if Req_EM_T s t then Ok (x, tmp_Fx c, s, evals c) else Ok (x, F x, s, S (evals c))
  | None => Ok (x, F x, s, S (evals c))
  end.

(** 147-150 *)
Definition gamma : R := 9 / 10.
Definition eta_max : R := 9999 / 10000.
Definition eta_treshold : R := 1 / 10.
(** the state of the main loop *)
Record newton := mknewton { nx : dv; nF : dv; nF0 : R; neta : R; nFn : R; nov : list dv }.
(** 162-179.  The [dx] of line 166 shadows that of line 152, which keeps its initial value.  [None]: the loop is left.
    The squared norm in the denominator of line 173 is positive, since the test of line 162 failed. *)
Definition newton_step (T : tols) (st : newton) : res (newton + newton) :=
  let '(stop, f0) := check T (nF0 st) (nF st) (nx st) (vscal INF (fun _ => 1)) in
  if stop then Ok (inl (mknewton (nx st) (nF st) f0 (neta st) (nFn st) (nov st)))
  else
    let eta := neta st in
    let tol := Rmin eta (eta * nFn st) in
    '(d, ov) <- jac_solve (nx st) (nF st) (nov st) (nF st) tol ;;
    let dx := vscal (-1) d in
    '(x, Fx, _, _) <- line_search 7 (nx st) (nF st) dx ;;
    let new := vnorm Fx in
    let eta_A := gamma * new * new / (nFn st * nFn st) in
    let eta := if Rlt_dec (gamma * eta * eta) eta_treshold then Rmin eta_max eta_A
               else Rmin eta_max (Rmax eta_A (gamma * eta * eta)) in
    Ok (inr (mknewton x Fx f0 eta new ov)).
(** 160-180; also the number of iterations made *)
Fixpoint newton_loop (m : nat) (T : tols) (st : newton) : res (newton * nat) :=
  match m with
  | O => Ok (st, 0%nat)
  | S m =>
    r <- newton_step T st ;;
    match r with
    | inl st => Ok (st, 0%nat)
    | inr st => '(st, k) <- newton_loop m T st ;; Ok (st, S k)
    end
  end.
(** 143-182 *)
Definition nonlin_solve (T : tols) (x : dv) : res (newton * nat) :=
  newton_loop (3 * (n + 1)) T (mknewton x (F x) 0 (/ 1000) (maxnorm (F x)) []).
End Newton.
End Dim.
(** newton_krylov.h 40-41 *)
Definition default_tols : tols := mktols (Rpower mEPS (/ 3)) INF INF INF.

(** lgmres.cpp 106-127: the system A x = b with preconditioner M; an empty matrix stands for the identity, an empty
    starting vector for zero *)
Definition lgmres_wrapper (n : nat) (qr : nat -> nat -> dmat -> dmat * dmat) (lsolve : nat -> dmat -> dv -> dv) (junk : dv)
    (A : dmat) (b : dv) (x0 : option dv) (M : option dmat) (tol : R) (maxiter inner_m outer_k : nat) (ov : list dv)
    : res (dv * list dv * nat) :=
  let mul (A : dmat) (x : dv) : dv := fun i => rsum n (fun j => A i j * x j) in
  let M := match M with Some M => mul M | None => mul (fun i j => if Nat.eqb i j then 1 else 0) end in
  lgmres n (mul A) M qr lsolve junk b (match x0 with Some x => x | None => vzero end) ov tol maxiter inner_m outer_k.
