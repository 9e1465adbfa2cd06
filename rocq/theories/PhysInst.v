(** The constitutive functions of /repo/code/cpp/src/system as the [phys] record the solvers are built on, and
    variables/sources.cpp, eig.cpp. *)
From Coq Require Import Reals ZArith.
From Verif Require Import Base Options Sum Mat3 PhysModel EqModel.
Import List ListNotations.
Open Scope R_scope.

(** ** variables/sources.cpp *)
(** std::pow: [None] is a value that is not a finite number (NaN, or infinite for a zero base) *)
Definition is_int (y : R) : bool := if Req_EM_T (IZR (Int_part y)) y then true else false.
Definition cpow (x y : R) : option R :=
  if Rlt_dec 0 x then Some (Rpower x y)
  else if is_int y then
    (if Req_EM_T x 0 then (if Rlt_dec y 0 then None else Some (powerRZ x (Int_part y))) else Some (powerRZ x (Int_part y)))
  else if Req_EM_T x 0 then (if Rlt_dec 0 y then Some 0 else None) else None.
Definition omap2 (f : R -> R -> R) (a b : option R) : option R :=
  match a, b with Some x, Some y => Some (f x y) | _, _ => None end.
Definition frobnorm (A : mat3) : R := sqrt (frob3 A A).

(** objects.h: the constants of the reaction laws *)
Record rates := mkrates {
  Kc : R; Ti : R; rB : R; Ea : R; Rc : R; rI : R; rG1 : R; rG2 : R;
  ra : R; rb : R; rc : R; rd_ : R; re : R; rg : R; rx : R; ry : R; rz : R; phiI : R; phiG1 : R; phiG2 : R }.

Section Src.
Variable o : options.
Variable P : par.
Variable K : rates.
Variable solve_multi : vec -> R * R * R.
Notation MP := (prm P).
Notation pressure := (PhysModel.pressure o P solve_multi).
Notation temperature := (PhysModel.temperature o P solve_multi).
Notation sigma := (PhysModel.sigma P).

(** 13-81 *)
Definition theta1inv (Q : vec) : option R :=
  let r := Q 0%nat in let A53 := cpow (det3 (get_A Q)) (5 / 3) in let cs2 := c_s2 MP r in
  if SOLID P then
    if POWER_LAW P then
      let sn := cmin (sigma_norm (sigma Q)) 100000000 in
      omap2 (fun A53 w => 3 * A53 / (cs2 * tau0 MP) * w) A53 (cpow (sn / sigY MP) (nn MP))
    else Some 0
  else if BINGHAM P then
    let sn := frobnorm (sigma Q) / sqrt 2 in
    if Rlt_dec (sigY MP) sn then option_map (fun A53 => A53 * rho0 MP / (2 * mu MP) * (1 - sigY MP / sn)) A53 else Some 0
  else
    let c := omap2 (fun A53 m => A53 * rho0 MP / (2 * m)) A53 (cpow (mu MP) (1 / nn MP)) in
    if POWER_LAW P then
      let sn := frobnorm (sigma Q) / sqrt 2 in omap2 Rmult c (cpow sn ((1 - nn MP) / nn MP))
    else c.
(** 83-91 *)
Definition theta2inv (Q : vec) : R := temperature Q / (kappa MP * Q 0%nat).
(** 95-135; std::max(ret, 0.) of a NaN is the NaN *)
Definition reaction_rate (Q : vec) : res (option R) :=
  let l := cmax 0 (Q (mV o) / Q 0%nat) in
  match REACTION P with
  | 0%Z => Ok (Some (if Rlt_dec (Ti K) (temperature Q) then Kc K * l else 0))
  | 1%Z => Ok (Some (rB K * exp (- Ea K / (Rc K * temperature Q)) * l))
  | 2%Z =>
    let r := Q 0%nat in let p := cmax (pressure Q) 0 in let l := cmin l 1 in let ph := 1 - l in
    let m3 c a b e := option_map (fun w => c * w) (omap2 Rmult a (omap2 Rmult b e)) in
    let ret := Some 0 in
    let ret := if Rlt_dec ph (phiI K) then
        omap2 Rplus ret (option_map (fun w => rI K * w) (omap2 Rmult (cpow l (rb K)) (cpow (r / rho0 MP - 1 - ra K) (rx K)))) else ret in
    let ret := if Rlt_dec ph (phiG1 K) then omap2 Rplus ret (m3 (rG1 K) (cpow l (rc K)) (cpow ph (rd_ K)) (cpow p (ry K))) else ret in
    let ret := if Rlt_dec (phiG2 K) ph then omap2 Rplus ret (m3 (rG2 K) (cpow l (re K)) (cpow ph (rg K)) (cpow p (rz K))) else ret in
    Ok (option_map (fun w => cmax w 0) ret)
  | _ => Throw "Reaction type not recognized"
  end.

(** equations.cpp 50-67 with these rates; [None]: some component is not finite *)
Definition full_source (Q : vec) : res (option vec) :=
  r <- (if Z.ltb (-1) (REACTION P) then reaction_rate Q else Ok (Some 0)) ;;
  Ok (match (if VISCOUS o then theta1inv Q else Some 0), r with
      | Some th, Some rr => Some (PhysModel.source o P (fun _ => th) theta2inv (fun _ => rr) Q)
      | _, _ => None
      end).

(** equations.cpp 170-172, 175: the product dFdP * dPdQ *)
Definition jacobian_product (Q : vec) (d : nat) : EqModel.mat :=
  fun i j => rsum (V o) (fun k => dFdP o P solve_multi Q d i k * dPdQ o P solve_multi Q k j).

(** ** eig.cpp; the 4x5 and 5x4 (or, without heat, 3x5 and 5x3) matrices *)
(** 8-27 *)
Definition Xi1 (r p : R) (Q : vec) (d : nat) : mat :=
  let M : mat := fun _ _ => 0 in
  let M := setblock M 0 1 1 1 (fun _ _ => 1 / r) in
  let M := if VISCOUS o then
    let M := setblock M 0 0 3 1 (fun i _ => -1 / r * dsigmadrho P Q d i) in
    setblock M 0 2 3 3 (fun i j => -1 / r * dsigmadA_dir P Q d i j)
    else M in
  if THERMAL o then
    let M := setblock M 3 0 1 1 (fun _ _ => dTdrho MP r p / r) in
    setblock M 3 1 1 1 (fun _ _ => dTdp MP r / r)
  else M.
(** 29-53 *)
Definition Xi2 (r p : R) (Q : vec) (d : nat) : mat :=
  let c0 := c_0 o P solve_multi Q in
  let M : mat := fun _ _ => 0 in
  let M := setblock M 0 0 1 1 (fun _ _ => r) in
  let M := setblock M 1 d 1 1 (fun _ _ => r * c0 * c0) in
  let M := if VISCOUS o then
    let M := addblock M 1 0 1 3 (fun _ j => sigma_col P Q d j - r * dsigmadrho P Q d j) in
    setblock M 2 0 3 3 (get_A Q)
    else M in
  if THERMAL o then let ch := c_h P r (temperature_mg MP r p) in setblock M 1 3 1 1 (fun _ _ => r * ch * ch / dTdp MP r) else M.
(** 55-64 *)
Definition thermo_acoustic_tensor (Q : vec) (d : nat) : mat :=
  let r := Q 0%nat in let p := pressure Q in
  fun i j => rsum 5 (fun k => Xi1 r p Q d i k * Xi2 r p Q d k j).
(** 66-77; [specrad] is the largest modulus of the eigenvalues Eigen computes *)
Variable specrad : mat -> R.
Definition max_abs_eigs (Q : vec) (d : nat) : R :=
  let vd := Q (2 + d)%nat / Q 0%nat in let lam := sqrt (specrad (thermo_acoustic_tensor Q d)) in
  if Rlt_dec 0 vd then vd + lam else lam - vd.

Variable eigabs : EqModel.mat -> vec -> vec.
Variable src : vec -> vec.
Definition gpr : phys :=
  mkphys pressure (sigma_col P) (temperature_mg MP) (ca2 MP) src max_abs_eigs jacobian_product eigabs.
End Src.
