(** Model of /repo/code/cpp/src/system/multi: rotations.cpp, conditions.cpp and the iteration of riemann.cpp. *)
From Coq Require Import Reals ZArith.
From Verif Require Import Base Options Sum Mat3 PhysModel.
Import List ListNotations.
Open Scope R_scope.

(** ** rotations.cpp *)
(** 9-11; a normal of more than three components would be written past the end of e1 *)
Definition pad3 (n : list R) : res vec3 :=
  if Nat.leb (List.length n) 3 then Ok (fun i => nth i n 0) else UB "rotation_matrix: e1 out of range".
(** 16-29: the number under the root, and the second and third rows before normalisation *)
Definition rot_den2 (e : vec3) : R :=
  let a := e 0%nat in let b := e 1%nat in let c := e 2%nat in
  if Rle_dec (Rabs (b + c)) (Rabs (b - c)) then 2 * (1 - a * b - b * c - c * a) else 2 * (1 + a * b + b * c - c * a).
Definition rot_e2 (e : vec3) : vec3 :=
  let a := e 0%nat in let b := e 1%nat in let c := e 2%nat in
  if Rle_dec (Rabs (b + c)) (Rabs (b - c))
  then fun i => match i with O => b - c | 1%nat => c - a | _ => a - b end
  else fun i => match i with O => b + c | 1%nat => c - a | _ => - a - b end.
Definition rot_e3 (e : vec3) : vec3 :=
  let a := e 0%nat in let b := e 1%nat in let c := e 2%nat in let Sq := dot3 e e in
  if Rle_dec (Rabs (b + c)) (Rabs (b - c))
  then let Sum := a + b + c in fun i => e i * Sum - Sq
  else let Sum := a - b + c in fun i => match i with O => a * Sum - Sq | 1%nat => b * Sum + Sq | _ => c * Sum - Sq end.
(** 5-35; the divisions are undefined unless [rot_den2] is positive *)
Definition rotation_matrix (n : list R) : res mat3 :=
  e1 <- pad3 n ;;
  let den := sqrt (rot_den2 e1) in
  Ok (fun i j => match i with O => e1 j | 1%nat => rot_e2 e1 j / den | _ => rot_e3 e1 j / den end).
(** 37-47 *)
Definition rotate_tensors (o : options) (Q : vec) (M : mat3) : vec :=
  let Q := setseg Q 2 3 (mvec M (get_rhov Q)) in
  let A := mmul (mmul M (get_A Q)) (mtr M) in
  let Q := setseg Q 5 9 (fun k => A (k / 3)%nat (k mod 3)%nat) in
  if THERMAL o then setseg Q 14 3 (mvec M (get_rhoJ Q)) else Q.

(** ** conditions.cpp *)
Section Conditions.
Variable o : options.
(** eigenvecs.h 7 *)
Definition n1 : nat := 3 + b2n (THERMAL o).
(** the inverse of a n x n matrix (Eigen); external *)
Variable inverse : nat -> mat -> mat.
(** 7-29. The block reads rows 11 .. 11+n1-1 and the vectors have [n1] components. *)
Definition side_velocity (Q : vec) : vec :=
  fun i => if Nat.ltb i 3 then Q (2 + i)%nat / Q 0%nat else Q 14%nat / Q 0%nat.
Definition stick_bcs (RL RR : mat) (QL QR xL xR : vec) : vec :=
  let YL : mat := fun i j => RL (11 + i)%nat j in let YR : mat := fun i j => RR (11 + i)%nat j in
  let yL := side_velocity QL in let yR := side_velocity QR in
  let M := inverse n1 (fun i j => YL i j - YR i j) in
  fun i => rsum n1 (fun k => M i k * (yR k - yL k + rsum n1 (fun j => YL k j * xL j) - rsum n1 (fun j => YR k j * xR j))).
(** 31-64. In the thermal branch line 40 assigns YL again instead of YR, so the entries of YR are never written
    ([None]); reading them is undefined. *)
Definition slip_bcs (RL RR : mat) (QL QR xL xR : vec) : res vec :=
  if THERMAL o then
    let row (M : mat) : nat -> nat -> option R := fun i j => Some (M (if Nat.eqb i 0 then 11%nat else 14%nat) j) in
    let YL := row RL in
    let YR : nat -> nat -> option R := fun _ _ => None in
    let YL := row RR in
    let get (Y : nat -> nat -> option R) i j := match Y i j with Some x => Ok x | None => UB "slip_bcs: YR is not initialised" end in
    let yL i := if Nat.eqb i 0 then QL 2%nat / QL 0%nat else QL 14%nat / QL 0%nat in
    let yR i := if Nat.eqb i 0 then QR 2%nat / QR 0%nat else QR 14%nat / QR 0%nat in
    let ent i j := (a <- get YL i j ;; b <- get YR i j ;; Ok (a - b)) in
    m00 <- ent 0%nat 0%nat ;; m01 <- ent 0%nat (n1 - 1)%nat ;; m10 <- ent 1%nat 0%nat ;; m11 <- ent 1%nat (n1 - 1)%nat ;;
    let M := inverse 2 (fun i j => match i, j with O, O => m00 | O, _ => m01 | _, O => m10 | _, _ => m11 end) in
    let rhs i := yR i - yL i + rsum n1 (fun j => RR (if Nat.eqb i 0 then 11%nat else 14%nat) j * xL j) in
    let tmp i := M i 0%nat * rhs 0%nat + M i 1%nat * rhs 1%nat in
    Ok (fun i => match i with O => tmp 0%nat | 3%nat => tmp 1%nat | _ => 0 end)
  else
    let YL : vec := fun j => RL 11%nat j in let YR : vec := fun j => RR 11%nat j in
    let yL := QL 2%nat / QL 0%nat in let yR := QR 2%nat / QR 0%nat in
    let tmp := (yR - yL + rsum n1 (fun j => YL j * xL j) - rsum n1 (fun j => YR j * xR j)) / (YL 0%nat - YR 0%nat) in
    Ok (fun i => match i with O => tmp | _ => 0 end).
End Conditions.

(** ** riemann.cpp *)
Section Riemann.
Variable o : options.
Variables (stick relaxation : bool) (STAR_TOL : R).
Variable inverse : nat -> mat -> mat.
(** a material: its parameters, whether it is a vacuum (EOS = -1), the oracle of its mixture solver, its constraint
    matrix (riemann.cpp 79-154, external: it goes through Eigen's eigen and QR decompositions) and its
    relaxation step (relaxation/analytic.cpp 152-162) *)
Record material := mkmaterial {
  mpar : par; vacuum : bool; mix : vec -> R * R * R; constraints : vec -> R -> mat; relax : vec -> R -> vec }.

(** 17-24 *)
Definition q_dims (MP : params) : R := ca2 MP / rho0 MP * Tref MP * sqrt (Tref MP / cv MP).
Definition max3 (v : vec3) : R := cmax (cmax (Rabs (v 0%nat)) (Rabs (v 1%nat))) (Rabs (v 2%nat)).
Definition ltb (x y : R) : bool := if Rlt_dec x y then true else false.
Notation Sig m Q := (Sigma o (mpar m) (mix m) Q 0).
Notation temp m Q := (temperature o (mpar m) (mix m) Q).
Definition vel (Q : vec) : vec3 := fun i => get_rhov Q i / Q 0%nat.
Definition hflux (m : material) (Q : vec) : vec3 := heat_flux (mpar m) (temp m Q) (fun i => get_rhoJ Q i / Q 0%nat).
(** 26-77 *)
Definition check_star_convergence (QL QR : vec) (ML MR : material) : bool :=
  let SL := Sig ML QL in
  let pl := prm (mpar ML) in let pr := prm (mpar MR) in
  let cond :=
    if negb (vacuum MR) then
      let r0 := cmin (rho0 pl) (rho0 pr) in let b := cmin (b02 pl) (b02 pr) in
      let SR := Sig MR QR in let vL := vel QL in let vR := vel QR in
      if stick then
        (ltb (max3 (fun i => SL i - SR i) / (b * r0)) STAR_TOL && ltb (max3 (fun i => vL i - vR i) / sqrt b) STAR_TOL)%bool
      else
        (ltb (Rabs (SL 0%nat - SR 0%nat) / (b * r0)) STAR_TOL && ltb (Rabs (vL 0%nat - vR 0%nat) / sqrt b) STAR_TOL)%bool
    else ltb (max3 SL / (b02 pl * rho0 pl)) STAR_TOL in
  if THERMAL o then
    let qL := hflux ML QL in
    if negb (vacuum MR) then
      let q0 := cmin (q_dims pl) (q_dims pr) in let T0 := cmin (Tref pl) (Tref pr) in
      let qR := hflux MR QR in
      (cond && ltb (Rabs (qL 0%nat - qR 0%nat) / q0) STAR_TOL && ltb (Rabs (temp ML QL - temp MR QR) / T0) STAR_TOL)%bool
    else (cond && ltb (Rabs (qL 0%nat) / q_dims pl) STAR_TOL)%bool
  else cond.

Notation n1 := (n1 o).
Definition tractions (m : material) (Q : vec) : vec := fun i => if Nat.ltb i 3 then Sig m Q i else temp m Q.
Definition head (n : nat) (x : vec) : vec := fun i => if Nat.ltb i n then x i else 0.
Definition matvec (M : mat) (x : vec) : vec := fun i => rsum (V o) (fun j => M i j * x j).
(** 187-189, 198-200 *)
Definition apply_step (m : material) (M : mat) (c Q : vec) : vec :=
  let Pv := Cvec_to_Pvec o (mpar m) (mix m) Q in
  Pvec_to_Cvec o (mpar m) (fun i => matvec M c i + Pv i).
(** 156-201 *)
Definition star_stepper (QL QR : vec) (ML MR : material) : res (vec * vec) :=
  let RL := constraints ML QL 1 in
  let xL := tractions ML QL in
  if negb (vacuum MR) then
    let RR := constraints MR QR (-1) in
    let xR := tractions MR QR in
    x <- (if stick then Ok (stick_bcs o inverse RL RR QL QR xL xR) else slip_bcs o inverse RL RR QL QR xL xR) ;;
    let cL := head n1 (fun i => x i - xL i) in let cR := head n1 (fun i => x i - xR i) in
    let QR' := apply_step MR RR cR QR in
    Ok (apply_step ML RL cL QL, QR')
  else
    let cL := head n1 (fun i => - xL i) in
    let cL := if THERMAL o then
        let J0 := QL 14%nat / QL 0%nat in
        set1 cL 3 ((rsum 3 (fun j => RL 14%nat j * xL j) - J0) / RL 14%nat 3%nat) else cL in
    Ok (apply_step ML RL cL QL, fun _ => 0).

(** 203-233. [nan] says whether the state contains a NaN (doubles only); comparisons with a NaN are false, so
    [check_star_convergence] is asked only of states without one. The second component counts the steps. *)
Variable nan : vec -> bool.
Fixpoint star_loop (fuel : nat) (dt : R) (ML MR : material) (QL QR : vec) (count : nat) : res (vec * nat) :=
  if (negb (nan QL || (negb (vacuum MR) && nan QR)) && check_star_convergence QL QR ML MR)%bool then Ok (QL, count)
  else match fuel with
  | O => Ok (QL, count)
  | S fuel =>
    let QL1 := if relaxation then relax ML QL (dt / 2) else QL in
    let QR1 := if relaxation then if negb (vacuum MR) then relax MR QR (dt / 2) else QR else QR in
    ' (QL2, QR2) <- star_stepper QL1 QR1 ML MR ;;
    star_loop fuel dt ML MR QL2 QR2 (S count)
  end.
Definition IT_LIM : nat := 10.
Definition left_star_state (QL QR : vec) (ML MR : material) (dt : R) (n : list R) : res (vec * nat) :=
  M <- rotation_matrix n ;;
  ' (Q, count) <- star_loop IT_LIM dt ML MR (rotate_tensors o QL M) (rotate_tensors o QR M) 0 ;;
  if nan Q then Ok (QL, count) else Ok (rotate_tensors o Q (mtr M), count).
End Riemann.
