(** Model of the source-term steps: /repo/code/cpp/src/system/relaxation/analytic.cpp and numerical.cpp,
    /repo/code/cpp/src/solvers/split/rk.cpp and ode.cpp.

    A double that may fail to be a finite number is an [option R]; [None] stands for NaN and the infinities, and every
    arithmetic operation on [None] gives [None]. *)
From Coq Require Import Reals ZArith.
From Verif Require Import Base Options Mat3 PhysModel PhysInst UtilsModel.
Import List ListNotations.
Open Scope R_scope.

Definition obind {A B} (a : option A) (f : A -> option B) : option B := match a with Some x => f x | None => None end.
Notation "x <- a ;;; b" := (obind a (fun x => b)) (at level 61, a at next level, right associativity).
Definition odiv (a b : R) : option R := if Req_EM_T b 0 then None else Some (a / b).
Definition osqrt (a : R) : option R := if Rlt_dec a 0 then None else Some (sqrt a).
Definition oln (a : R) : option R := if Rlt_dec 0 a then Some (ln a) else None.

(** ** relaxation/analytic.cpp *)
(** 11: std::max(0., x) *)
Definition pos (x : R) : R := cmax 0 x.
Definition p4 (x : R) : R := x * x * x * x.

Section Analytic.
Variable o : options.
Variable P : par.
Notation MP := (prm P).

(** 13-15 *)
Definition body_forces (q : vec) (dt : R) : vec := setseg q 2 3 (fun k => q (2 + k)%nat + body P k * dt).

(** 17-69; [detA3] is the cube root of the determinant, a positive number *)
Definition nondimensionalized_time (r detA3 m0 u0 dt : R) : option R :=
  if POWER_LAW P then
    let n := nn MP in let cs2 := c_s2 MP r in
    let a := 9 * m0 - u0 - 9 in let b := 6 * m0 - u0 - 6 in
    if SOLID P then
      let c := 108 * a - 324 * b + 108 * a * a - 396 * a * b + 297 * b * b - 24 * (a * a * b - 2 * a * b * b + b * b * b) - 4 * p4 (a - b) in
      if Rle_dec c 0 then Some 0
      else
        l <- odiv c (18 * a - 36 * b + 9 * a * a - 132 / 5 * a * b + 33 / 2 * b * b - 8 / 7 * a * a * b + 2 * a * b * b
                     - 8 / 9 * b * b * b - p4 a / 6 + 16 / 27 * a * a * a * b - 4 / 5 * a * a * b * b + 16 / 33 * a * b * b * b - p4 b / 9) ;;;
        tmp1 <- odiv (n * l) (tau0 MP) ;;;
        w <- odiv (sqrt c * r * cs2) (6 * sigY MP) ;;;
        tmp2 <- cpow w n ;;;
        k <- odiv 2 (n * l) ;;;
        g <- oln (tmp1 * Rpower detA3 (4 * n + 7) * tmp2 * dt + 1) ;;;
        Some (k * g)
    else
      k <- odiv (1 - n) n ;;;
      let c := 108 * a - 324 * b + 180 * a * a - 612 * a * b + 459 * b * b - 24 * (a * a * b - 2 * a * b * b + b * b * b) - 4 * p4 (a - b) in
      if Rle_dec c 0 then Some 0
      else
        l <- odiv c (18 * a - 36 * b + 15 * a * a - 204 / 5 * a * b + 51 / 2 * b * b - 8 / 7 * a * a * b + 2 * a * b * b
                     - 8 / 9 * b * b * b - p4 a / 6 + 16 / 27 * a * a * a * b - 4 / 5 * a * a * b * b + 16 / 33 * a * b * b * b - p4 b / 9) ;;;
        m <- cpow (mu MP) (1 / n) ;;;
        t1 <- odiv (6 * m) (rho0 MP * b02 MP) ;;;
        tmp1 <- odiv (k * l) t1 ;;;
        tmp2 <- cpow (sqrt c * r * cs2 / (6 * sqrt 3)) k ;;;
        h <- odiv 2 (k * l) ;;;
        g <- oln (tmp1 * Rpower detA3 (4 * k + 7) * tmp2 * dt + 1) ;;;
        Some (h * g)
  else
    t <- odiv (rho0 MP * b02 MP * Rpower detA3 7) (3 * mu MP) ;;; Some (t * dt).

(** 95-98: the measures of the anisotropy after a time [tau] *)
Definition measure_a (m0 u0 : R) : R := 3 * m0 - u0 / 3 - 3.
Definition measure_b (m0 u0 : R) : R := 2 * m0 - u0 / 3 - 2.
Definition measure_m (m0 u0 tau : R) : R :=
  1 + measure_a m0 u0 * exp (- 6 * tau) - measure_b m0 u0 * exp (- 9 * tau).
Definition measure_u (m0 u0 tau : R) : R :=
  pos (6 * measure_a m0 u0 * exp (- 6 * tau) - 9 * measure_b m0 u0 * exp (- 9 * tau)).

(** 100-113 *)
Definition first_stretch (m u : R) : R :=
  let D := -2 * m * m * m + m * u + 2 in
  let arg1 := pos (6 * u * u * u - 81 * D * D) in
  if Rlt_dec (Rabs D) (/ 10 ^ 12) then sqrt (6 * u) / 3 * cos (PI / 6) + m
  else if Req_EM_T arg1 0 then
    let tmp := cbrt (54 * D) in tmp / 6 + u / tmp + m
  else
    let th := atan (sqrt arg1 / (9 * D)) in sqrt (6 * u) / 3 * cos (th / 3) + m.
(** 114-117 *)
Definition stretches (m u : R) : option (R * R * R) :=
  let x1 := first_stretch m u in
  let tmp2 := 3 * m - x1 in
  let arg2 := pos (x1 * tmp2 * tmp2 - 4) in
  w <- odiv arg2 x1 ;;;
  w <- osqrt w ;;;
  let x2 := / 2 * (w + tmp2) in
  x3 <- odiv 1 (x1 * x2) ;;;
  Some (x1, x2, x3).
(** 119-120, 124: std::sort, read from the largest to the smallest; the middle value is written as what is left of the sum *)
Definition sort3 (x1 x2 x3 : R) : nat -> R :=
  let hi := Rmax x1 (Rmax x2 x3) in let lo := Rmin x1 (Rmin x2 x3) in
  fun i => match i with O => hi | S O => x1 + x2 + x3 - hi - lo | _ => lo end.

(** Eigen's JacobiSVD: U, the singular values and V; external *)
Variable svd : mat3 -> mat3 * vec3 * mat3.

(** 119-126; [None]: the new distortion is not finite *)
Definition rebuild (U Vm : mat3) (detA1_3 : R) (x : R * R * R) : option mat3 :=
  let '(x1, x2, x3) := x in
  let y := sort3 x1 x2 x3 in
  s0 <- osqrt (y 0%nat) ;;; s1 <- osqrt (y 1%nat) ;;; s2 <- osqrt (y 2%nat) ;;;
  let s i := match i with O => s0 | S O => s1 | _ => s2 end in
  Some (mmul U (fun i j => Vm j i * (detA1_3 * s i))).

(** 71-128. With a vanishing singular value the quotients are not finite, [u0] is a NaN and nothing is done. *)
Definition relax_A (A : mat3) (dt : R) : option mat3 :=
  let '(U, s, Vm) := svd A in
  let detA := s 0%nat * s 1%nat * s 2%nat in
  if Req_EM_T detA 0 then Some A
  else
    let r := detA * rho0 MP in
    let d1 := cbrt detA in let d2 := d1 * d1 in
    let s0 := s 0%nat * s 0%nat / d2 in let s1 := s 1%nat * s 1%nat / d2 in let s2 := s 2%nat * s 2%nat / d2 in
    let m0 := (s0 + s1 + s2) / 3 in
    let u0 := ((s0 - s1) * (s0 - s1) + (s1 - s2) * (s1 - s2) + (s2 - s0) * (s2 - s0)) / 3 in
    if Rle_dec (/ 10 ^ 12) u0 then
      tau <- nondimensionalized_time r d1 m0 u0 dt ;;;
      x <- stretches (measure_m m0 u0 tau) (measure_u m0 u0 tau) ;;;
      rebuild U Vm d1 x
    else Some A.
(** the components of a matrix in a state: row by row from 5 on *)
Definition put_A (q : vec) (A : mat3) : vec := setseg q 5 9 (fun k => A (k / 3)%nat (k mod 3)%nat).
Definition relax_distortion (q : vec) (dt : R) : option vec := A <- relax_A (get_A q) dt ;;; Some (put_A q A).

(** 130-150; the impulse is in components 14..16 *)
Definition relax_thermal (q : vec) (dt : R) : option vec :=
  let r := q 0%nat in let E := q 1%nat / r in
  let v := fun i => get_rhov q i / r in
  let c1 := E - E_2A P r (get_A q) - E_3 v in
  let c2 := ca2 MP / 2 in
  k <- odiv (2 * ca2 MP) (kappa MP * r * cv MP) ;;;
  let c1 := c1 * k in let c2 := c2 * k in
  let ea := exp (- c1 * dt / 2) in
  h <- odiv c2 c1 ;;;
  let den := 1 - h * (1 - ea * ea) * dot3 (get_rhoJ q) (get_rhoJ q) / (r * r) in
  w <- osqrt den ;;;
  w <- odiv ea w ;;;
  Some (setseg q 14 3 (fun k => q (14 + k)%nat * w)).

(** 152-162 *)
Definition ode_stepper_analytic (q : vec) (dt : R) : option vec :=
  let q := body_forces q dt in
  q <- (if VISCOUS o then relax_distortion q dt else Some q) ;;;
  if THERMAL o then relax_thermal q dt else Some q.
End Analytic.

(** ** solvers/split/rk.cpp *)
Section Rk.
Variable f : option R -> res (option R).
Definition oadd := omap2 Rplus.
Definition oscale (c : R) := option_map (Rmult c).
(** 6-19: the increment *)
Definition rk4 (y : option R) (dt : R) : res (option R) :=
  k1 <- f y ;; let dy1 := oscale dt k1 in
  k2 <- f (oadd y (oscale (/ 2) dy1)) ;; let dy2 := oscale dt k2 in
  k3 <- f (oadd y (oscale (/ 2) dy2)) ;; let dy3 := oscale dt k3 in
  k4 <- f (oadd y dy3) ;; let dy4 := oscale dt k4 in
  Ok (oscale (/ 6) (oadd (oadd (oadd dy1 (oscale 2 dy2)) (oscale 2 dy3)) dy4)).
Fixpoint rk_steps (n : nat) (y : option R) (dt : R) : res (option R) :=
  match n with
  | O => Ok y
  | S n => d <- rk4 y dt ;; rk_steps n (oadd y d) dt
  end.
(** 21-32; without steps the loop body, the only use of [dt], is not reached *)
Definition runge_kutta (tf : R) (y : option R) (N : Z) : res (option R) := rk_steps (Z.to_nat N) y (tf / IZR N).
Definition isnan (y : option R) : bool := match y with None => true | Some _ => false end.
(** 40-48, fuelled; NaN is the only non-finite value the model has, so an infinite result counts as one here *)
Fixpoint launch (fuel : nat) (tf : R) (y y0 : option R) (N : Z) : res (option R) :=
  if isnan y0 then
    match fuel with
    | O => NoFuel
    | S fuel =>
      let N := (2 * N)%Z in
      y0 <- runge_kutta tf y N ;;
      if Z.ltb 64 N then Ok y0 else launch fuel tf y y0 N
    end
  else Ok y0.
(** 34-50 *)
Definition runge_kutta_launcher (fuel : nat) (tf : R) (y : option R) (N : Z) : res (option R) :=
  y0 <- runge_kutta tf y N ;; launch fuel tf y y0 N.
End Rk.

(** ** relaxation/numerical.cpp *)
Section Numerical.
Variable o : options.
Variable P : par.
Variable K : rates.
Variable solve_multi : vec -> R * R * R.
(** the value [func] takes at a NaN *)
Variable at_nan : res (option R).
(** 6-12 *)
Definition func (q : vec) (l : option R) : res (option R) :=
  match l with
  | None => at_nan
  | Some l => r <- reaction_rate o P K solve_multi (set1 q (mV o) (q 0%nat * l)) ;; Ok (option_map Ropp r)
  end.
(** options.h 17 *)
Definition RK_STEPS : Z := 4.
(** 14-32; std::max(0., NaN) is 0 *)
Definition ode_stepper_numerical (fuel : nat) (q : vec) (dt : R) : res vec :=
  if Z.ltb (-1) (REACTION P) then
    let r := q 0%nat in let l := q (mV o) / r in
    if Rlt_dec 0 l then
      l <- runge_kutta_launcher (func q) fuel dt (Some l) RK_STEPS ;;
      let l := match l with Some l => cmax 0 l | None => 0 end in
      Ok (set1 q (mV o) (r * l))
    else Ok q
  else Ok q.
End Numerical.

(** ** solvers/split/ode.cpp 5-11: the cells one after the other; [None]: some component of a cell is not finite and
    the cell is not followed further *)
Definition ode_cell (o : options) (P : par) (K : rates) (solve_multi : vec -> R * R * R) (at_nan : res (option R))
    (svd : mat3 -> mat3 * vec3 * mat3) (fuel : nat) (dt : R) (q : vec) : res (option vec) :=
  match ode_stepper_analytic o P svd q dt with
  | None => Ok None
  | Some q => q <- ode_stepper_numerical o P K solve_multi at_nan fuel q dt ;; Ok (Some q)
  end.
Fixpoint ode_launcher (o : options) (P : par) (K : rates) (solve_multi : vec -> R * R * R) (at_nan : res (option R))
    (svd : mat3 -> mat3 * vec3 * mat3) (fuel : nat) (dt : R) (u : grid) : res (list (option vec)) :=
  match u with
  | [] => Ok []
  | q :: u => q <- ode_cell o P K solve_multi at_nan svd fuel dt q ;;
              u <- ode_launcher o P K solve_multi at_nan svd fuel dt u ;; Ok (q :: u)
  end.
