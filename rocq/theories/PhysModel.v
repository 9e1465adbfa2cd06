(** Model of /repo/code/cpp/src/system: energy/mg.cpp, energy/eos.cpp, energy/derivatives.cpp, waves/*.cpp,
    functions/*.cpp, variables/*.cpp, equations.cpp (source), jacobians.cpp.

    Reals for doubles. [pow] is [Rpower], which agrees with it for a positive base (the theorems assume positive bases);
    a quotient by zero is not meaningful (the theorems exclude it). *)
From Coq Require Import Reals.
From Verif Require Import Base Options Mat3.
Import List ListNotations.
Open Scope R_scope.

(** energy/mg.h 6-11; every function that dispatches on any other number throws "EOS not recognized" *)
Inductive eos := STIFFENED_GAS | SHOCK_MG | JWL | COCHRAN_CHAN | GODUNOV_ROMENSKI.
Definition eos_of (EOS : Z) : res eos :=
  match EOS with
  | 0%Z => Ok STIFFENED_GAS | 1%Z => Ok SHOCK_MG | 2%Z => Ok JWL | 3%Z => Ok COCHRAN_CHAN | 4%Z => Ok GODUNOV_ROMENSKI
  | _ => Throw "EOS not recognized"
  end.

(** objects.h 23-60 *)
Record params := mkparams {
  kind : eos; rho0 : R; Tref : R; cv : R; pINF : R; Gam0 : R; c02 : R; ss : R; alpha : R; beta : R; gam : R;
  cA : R; cB : R; cR1 : R; cR2 : R; b02 : R; mu : R; tau0 : R; sigY : R; nn : R; ca2 : R; kappa : R }.
(** objects.h 62-103; the rate constants of the reaction laws are in PhysInst.v *)
Record par := mkpar {
  prm : params; SOLID : bool; POWER_LAW : bool; PMULTI : bool; BINGHAM : bool; body : nat -> R; MP2 : params;
  REACTION : Z; Qc : R }.

(** std::min, std::max *)
Definition cmin (a b : R) : R := if Rlt_dec b a then b else a.
Definition cmax (a b : R) : R := if Rlt_dec a b then b else a.

(** ** energy/mg.cpp *)
Section Mg.
Variable MP : params.
(** 6-29 *)
Definition Gamma_MG (r : R) : R :=
  match kind MP with
  | STIFFENED_GAS => gam MP - 1
  | SHOCK_MG => Gam0 MP * rho0 MP / r
  | GODUNOV_ROMENSKI => gam MP
  | JWL | COCHRAN_CHAN => Gam0 MP
  end.
(** 31-77 *)
Definition p_ref (r : R) : R :=
  match kind MP with
  | STIFFENED_GAS => - pINF MP
  | SHOCK_MG =>
    if Rlt_dec (rho0 MP) r then
      let tmp := 1 / rho0 MP - ss MP * (1 / rho0 MP - 1 / r) in c02 MP * (1 / rho0 MP - 1 / r) / (tmp * tmp)
    else c02 MP * (r - rho0 MP)
  | GODUNOV_ROMENSKI => let tmp := Rpower (r / rho0 MP) (alpha MP) in c02 MP * r / alpha MP * (tmp - 1) * tmp
  | JWL => let v_ := rho0 MP / r in cA MP * exp (- cR1 MP * v_) + cB MP * exp (- cR2 MP * v_)
  | COCHRAN_CHAN => let v_ := rho0 MP / r in cA MP * Rpower v_ (- cR1 MP) - cB MP * Rpower v_ (- cR2 MP)
  end.
(** 79-124 *)
Definition e_ref (r : R) : R :=
  match kind MP with
  | STIFFENED_GAS => pINF MP / r
  | SHOCK_MG => let pr := p_ref r in if Rlt_dec (rho0 MP) r then / 2 * pr * (1 / rho0 MP - 1 / r) else 0
  | GODUNOV_ROMENSKI => let tmp := Rpower (r / rho0 MP) (alpha MP) in c02 MP / (2 * alpha MP * alpha MP) * (tmp - 1) * (tmp - 1)
  | JWL => let v_ := rho0 MP / r in
      cA MP / (rho0 MP * cR1 MP) * exp (- cR1 MP * v_) + cB MP / (rho0 MP * cR2 MP) * exp (- cR2 MP * v_)
  | COCHRAN_CHAN => let v_ := rho0 MP / r in
      - cA MP / (rho0 MP * (1 - cR1 MP)) * (Rpower v_ (1 - cR1 MP) - 1) + cB MP / (rho0 MP * (1 - cR2 MP)) * (Rpower v_ (1 - cR2 MP) - 1)
  end.
(** 126-131 *)
Definition pressure_mg (r e : R) : R := (e - e_ref r) * r * Gamma_MG r + p_ref r.
(** 141-165 *)
Definition phi (r : R) : R :=
  match kind MP with
  | STIFFENED_GAS => Rpower (r / rho0 MP) (gam MP - 1)
  | SHOCK_MG => exp (Gam0 MP * (1 - rho0 MP / r))
  | GODUNOV_ROMENSKI => Rpower (r / rho0 MP) (gam MP)
  | JWL => Rpower (r / rho0 MP) (Gam0 MP)
  | COCHRAN_CHAN => Rpower (r / rho0 MP) (Gam0 MP)
  end.
(** 133-139 *)
Definition temperature_mg (r p : R) : R := phi r * Tref MP + (p - p_ref r) / (r * Gamma_MG r * cv MP).
(** 167-186 *)
Definition dGamma_MG (r : R) : R := match kind MP with SHOCK_MG => - Gam0 MP * rho0 MP / (r * r) | _ => 0 end.
(** 188-235 *)
Definition dp_ref (r : R) : R :=
  match kind MP with
  | STIFFENED_GAS => 0
  | SHOCK_MG =>
    if Rlt_dec (rho0 MP) r then
      let tmp := ss MP * (r - rho0 MP) - r in c02 MP * rho0 MP * rho0 MP * (ss MP * (rho0 MP - r) - r) / (tmp * tmp * tmp)
    else c02 MP
  | GODUNOV_ROMENSKI => let tmp := Rpower (r / rho0 MP) (alpha MP) in
      c02 MP / alpha MP * tmp * ((1 + alpha MP) * (tmp - 1) + alpha MP * tmp)
  | JWL => let v_ := rho0 MP / r in v_ / r * (cA MP * cR1 MP * exp (- cR1 MP * v_) + cB MP * cR2 MP * exp (- cR2 MP * v_))
  | COCHRAN_CHAN => let v_ := rho0 MP / r in
      cA MP * cR1 MP / r * Rpower v_ (- cR1 MP) - cB MP * cR2 MP / r * Rpower v_ (- cR2 MP)
  end.
(** 237-263 *)
Definition de_ref (r : R) : R :=
  match kind MP with
  | STIFFENED_GAS | GODUNOV_ROMENSKI | JWL | COCHRAN_CHAN => p_ref r / (r * r)
  | SHOCK_MG =>
    if Rlt_dec (rho0 MP) r then
      let tmp := ss MP * (r - rho0 MP) - r in - (r - rho0 MP) * rho0 MP * c02 MP / (tmp * tmp * tmp)
    else 0
  end.
(** 265-273 *)
Definition dedrho (r p : R) : R :=
  de_ref r - (dp_ref r * r * Gamma_MG r + (Gamma_MG r + r * dGamma_MG r) * (p - p_ref r)) / ((r * Gamma_MG r) * (r * Gamma_MG r)).
(** 275-279 *)
Definition dedp (r : R) : R := 1 / (r * Gamma_MG r).
(** 281-294 *)
Definition dTdrho (r p : R) : R :=
  - (dp_ref r * r * Gamma_MG r + (Gamma_MG r + r * dGamma_MG r) * (p - p_ref r)) / ((r * Gamma_MG r) * (r * Gamma_MG r)) / cv MP.
(** 296-303 *)
Definition dTdp (r : R) : R := dedp r / cv MP.
(** energy/eos.cpp 10-19 *)
Definition E_1 (r p : R) : R := e_ref r + (p - p_ref r) / (r * Gamma_MG r).
(** waves/shear.cpp 6-13, 15-20, 22-28, 30-41 *)
Definition c_s2 (r : R) : R := b02 MP * Rpower (r / rho0 MP) (beta MP).
Definition dc_s2drho (r : R) : R := beta MP / r * c_s2 r.
Definition C_0 (r : R) : R := (1 - beta MP / Gamma_MG r) * c_s2 r.
Definition dC_0drho (r : R) : R :=
  (1 - beta MP / Gamma_MG r) * dc_s2drho r + beta MP / (Gamma_MG r * Gamma_MG r) * dGamma_MG r * c_s2 r.
End Mg.

(** ** functions/matrices.cpp *)
(** 8-15 *)
Definition AdevG (A : mat3) : mat3 :=
  let G := mmul (mtr A) A in let x := (G 0%nat 0%nat + G 1%nat 1%nat + G 2%nat 2%nat) / 3 in
  mmul A (fun i j => G i j - (if Nat.eqb i j then x else 0)).
(** 17-27 *)
Definition devGsq (A : mat3) : R :=
  let row i j := dot3 (A i) (A j) in
  let G00 := row 0%nat 0%nat in let G11 := row 1%nat 1%nat in let G22 := row 2%nat 2%nat in
  let G01 := row 0%nat 1%nat in let G02 := row 0%nat 2%nat in let G12 := row 1%nat 2%nat in
  let t := (G00 + G11 + G22) / 3 in
  (G00 - t) * (G00 - t) + (G11 - t) * (G11 - t) + (G22 - t) * (G22 - t) + 2 * (G01 * G01 + G02 * G02 + G12 * G12).
(** 29-41 *)
Definition sigma_norm (s : mat3) : R :=
  let a := s 0%nat 0%nat - s 1%nat 1%nat in let b := s 1%nat 1%nat - s 2%nat 2%nat in let c := s 2%nat 2%nat - s 0%nat 0%nat in
  let tmp1 := a * a + b * b + c * c in
  let tmp2 := s 0%nat 1%nat * s 0%nat 1%nat + s 1%nat 2%nat * s 1%nat 2%nat + s 2%nat 0%nat * s 2%nat 0%nat in
  sqrt (/ 2 * tmp1 + 3 * tmp2).

(** ** functions/vectors.cpp 6-22; a state has its distortion in components 5..13, row by row *)
Definition get_rhov (Q : vec) : vec3 := fun i => Q (2 + i)%nat.
Definition get_A (Q : vec) : mat3 := fun i j => Q (5 + 3 * i + j)%nat.
Definition get_rhoJ (Q : vec) : vec3 := fun i => Q (14 + i)%nat.

Section Phys.
Variable o : options.
Variable P : par.
Notation MP := (prm P).

(** ** energy/eos.cpp *)
(** 21-25, 27-30, 32-35, 37-41 *)
Definition E_2A (r : R) (A : mat3) : R := C_0 MP r / 4 * devGsq A.
Definition E_2J (J : vec3) : R := ca2 MP * dot3 J J / 2.
Definition E_3 (v : vec3) : R := dot3 v v / 2.
Definition E_R (l : R) : R := Qc P * (l - 1).
(** 43-70; the thermal and reactive overloads *)
Definition total_energy (r p : R) (A : mat3) (J : option vec3) (v : vec3) (l : option R) : R :=
  E_1 MP r p + E_3 v + E_2A r A + (match J with Some J => E_2J J | None => 0 end) + (match l with Some l => E_R l | None => 0 end).
(** 72-94 *)
Definition internal_energy (Q : vec) : R :=
  let r := Q 0%nat in
  Q 1%nat / r - E_3 (fun i => get_rhov Q i / r)
  - (if VISCOUS o then E_2A r (get_A Q) else 0)
  - (if THERMAL o then E_2J (fun i => get_rhoJ Q i / r) else 0)
  - (if Z.ltb (-1) (REACTION P) then E_R (Q (mV o) / r) else 0).

(** energy/multi.cpp 32-62: pressure and partial densities of a mixture; the nonlinear solver is external *)
Variable solve_multi : vec -> R * R * R.

(** ** variables/state.cpp *)
(** 11-21 *)
Definition pressure (Q : vec) : R :=
  if PMULTI P then fst (fst (solve_multi Q)) else pressure_mg MP (Q 0%nat) (internal_energy Q).

(** ** energy/derivatives.cpp *)
(** 11-46 *)
Definition dEdrho (Q : vec) : R :=
  let r := Q 0%nat in let tmp := dC_0drho MP r / 4 * devGsq (get_A Q) in
  if PMULTI P then
    let l := Q (mV o) / r in
    let '(p, r1, r2) := solve_multi Q in
    let dT1 := dTdrho MP r1 p in let dT2 := dTdrho (MP2 P) r2 p in
    let c := l / (r1 * r1) * dT2 + (1 - l) / (r2 * r2) * dT1 in
    let dr1 := 1 / (r * r * c) * dT2 in let dr2 := 1 / (r * r * c) * dT1 in
    l * dedrho MP r1 p * dr1 + (1 - l) * dedrho (MP2 P) r2 p * dr2 + tmp
  else dedrho MP r (pressure Q) + tmp.
(** 48-66 *)
Definition dEdp (Q : vec) : R :=
  let r := Q 0%nat in
  if PMULTI P then
    let l := Q (mV o) / r in let '(p, r1, r2) := solve_multi Q in l * dedp MP r1 + (1 - l) * dedp (MP2 P) r2
  else dedp MP r.
(** 68-74, 76-82, 84-89 *)
Definition dEdA (Q : vec) : mat3 := mscal (C_0 MP (Q 0%nat)) (AdevG (get_A Q)).
Definition dEdA_s (Q : vec) : mat3 := mscal (c_s2 MP (Q 0%nat)) (AdevG (get_A Q)).
Definition dEdJ (Q : vec) : vec3 := fun i => ca2 MP * get_rhoJ Q i / Q 0%nat.

(** variables/state.cpp 23-29, 31-37, 39-46 *)
Definition sigma (Q : vec) : mat3 := mmul (mscal (- Q 0%nat) (mtr (dEdA_s Q))) (get_A Q).
Definition sigma_col (Q : vec) (d : nat) : vec3 := mvec (mscal (- Q 0%nat) (mtr (dEdA_s Q))) (fun k => get_A Q k d).
Definition Sigma (Q : vec) (d : nat) : vec3 := fun i => - sigma_col Q d i + (if Nat.eqb i d then pressure Q else 0).
(** 48-54 *)
Definition dsigmadrho (Q : vec) (d : nat) : vec3 :=
  let r := Q 0%nat in fun i => (1 / r + dc_s2drho MP r / c_s2 MP r) * sigma_col Q d i.
(** 56-69 *)
Definition dsigmadA_dir (Q : vec) (d : nat) : mat3 :=
  let r := Q 0%nat in let A := get_A Q in let G := mmul (mtr A) A in
  let ret := fun i j => (if Nat.eqb j d then 2 else 1) * AdevG A i j + 1 / 3 * A i d * G d j + G d d * A i j in
  fun i j => - r * c_s2 MP r * ret j i.
(** 71-84 *)
Definition dsigmadA (r cs2 : R) (A G AdG : mat3) (i j m n : nat) : R :=
  - r * cs2 * (A m i * G j n + A m j * G i n - 2 / 3 * G i j * A m n
               + (if Nat.eqb i n then AdG m j else 0) + (if Nat.eqb j n then AdG m i else 0)).
(** 86-95, 97-100 *)
Definition temperature (Q : vec) : R := temperature_mg MP (Q 0%nat) (pressure Q).
Definition heat_flux (T : R) (J : vec3) : vec3 := fun i => ca2 MP * T * J i.
(** waves/speeds.cpp 8-18, 20-25 *)
Definition c_0 (Q : vec) : R := let r := Q 0%nat in sqrt ((pressure Q / (r * r) - dEdrho Q) / dEdp Q).
Definition c_h (r T : R) : R := sqrt (ca2 MP * T / cv MP) / r.

(** ** functions/vectors.cpp *)
Definition setseg (Q : vec) (lo n : nat) (f : nat -> R) : vec :=
  fun k => if (Nat.leb lo k && Nat.ltb k (lo + n))%bool then f (k - lo)%nat else Q k.
Definition set1 (Q : vec) (i : nat) (x : R) : vec := fun k => if Nat.eqb k i then x else Q k.
(** 33-44 *)
Definition Pvec (Q : vec) : vec :=
  let r := Q 0%nat in let p := pressure Q in
  let Q := set1 Q 1 p in
  let Q := setseg Q 2 3 (fun i => Q (2 + i)%nat / r) in
  let Q := if THERMAL o then setseg Q 14 3 (fun i => Q (14 + i)%nat / r) else Q in
  if MULTI o then set1 Q (mV o) (Q (mV o) / r) else Q.
(** 46-83 *)
Definition Cvec (Pv : vec) : vec :=
  let r := Pv 0%nat in let p := Pv 1%nat in let v := get_rhov Pv in let A := get_A Pv in
  let E := total_energy r p A (if THERMAL o then Some (get_rhoJ Pv) else None) v (if MULTI o then Some (Pv (mV o)) else None) in
  let Q := set1 Pv 1 (r * E) in
  let Q := setseg Q 2 3 (fun i => Q (2 + i)%nat * r) in
  let Q := if THERMAL o then setseg Q 14 3 (fun i => Q (14 + i)%nat * r) else Q in
  if MULTI o then set1 Q (mV o) (Q (mV o) * r) else Q.
(** 85-107 *)
Definition Cvec_to_Pvec (Q : vec) : vec :=
  let r := Q 0%nat in let p := pressure Q in let rv := get_rhov Q in let A := get_A Q in
  let Q := set1 Q 1 p in
  let Q := setseg Q 2 3 (fun i => A i 0%nat) in
  let Q := setseg Q 5 3 (fun i => A i 1%nat) in
  let Q := setseg Q 8 3 (fun i => A i 2%nat) in
  let Q := setseg Q 11 3 (fun i => rv i / r) in
  let Q := if THERMAL o then setseg Q 14 3 (fun i => Q (14 + i)%nat / r) else Q in
  if MULTI o then set1 Q (mV o) (Q (mV o) / r) else Q.
(** 109-154 *)
Definition Pvec_to_Cvec (Pv : vec) : vec :=
  let r := Pv 0%nat in let p := Pv 1%nat in
  let A : mat3 := fun i j => Pv (2 + 3 * j + i)%nat in
  let v : vec3 := fun i => Pv (11 + i)%nat in
  let Q := setseg Pv 2 3 (fun i => r * v i) in
  let Q := setseg Q 5 9 (fun k => A (k / 3)%nat (k mod 3)%nat) in
  let Q := if MULTI o then set1 Q (mV o) (Q (mV o) * r) else Q in
  let l := if Z.ltb (-1) (REACTION P) then Some (Q (mV o) / r) else None in
  let J := if THERMAL o then Some (get_rhoJ Q) else None in
  let Q := set1 Q 1 (r * total_energy r p A J v l) in
  if THERMAL o then setseg Q 14 3 (fun i => Q (14 + i)%nat * r) else Q.

(** ** equations.cpp 50-67; [theta1inv], [theta2inv] and [reaction_rate] are in variables/sources.cpp (PhysInst.v) *)
Variables (theta1inv theta2inv reaction_rate : vec -> R).
Definition source (Q : vec) : vec :=
  let ret := setseg (fun _ => 0) 2 3 (body P) in
  let ret := if VISCOUS o then setseg ret 5 9 (fun k => - dEdA_s Q (k / 3)%nat (k mod 3)%nat * theta1inv Q) else ret in
  let ret := if THERMAL o then setseg ret 14 3 (fun i => - Q 0%nat * dEdJ Q i * theta2inv Q) else ret in
  if Z.ltb (-1) (REACTION P) then set1 ret (mV o) (- Q 0%nat * reaction_rate Q) else ret.

(** ** jacobians.cpp *)
Definition mat := nat -> nat -> R.
Definition addblock (M : mat) (r c n m : nat) (f : nat -> nat -> R) : mat :=
  fun i j => M i j + (if (Nat.leb r i && Nat.ltb i (r + n) && Nat.leb c j && Nat.ltb j (c + m))%bool then f (i - r)%nat (j - c)%nat else 0).
Definition setblock (M : mat) (r c n m : nat) (f : nat -> nat -> R) : mat :=
  fun i j => if (Nat.leb r i && Nat.ltb i (r + n) && Nat.leb c j && Nat.ltb j (c + m))%bool then f (i - r)%nat (j - c)%nat else M i j.
(** 10-98 *)
Definition dFdP (Q : vec) (d : nat) : mat :=
  let r := Q 0%nat in let E := Q 1%nat / r in let p := pressure Q in
  let v : vec3 := fun i => get_rhov Q i / r in let A := get_A Q in
  let Er := dEdrho Q in let Ep := dEdp Q in let vd := v d in let rvd := r * vd in
  let G := mmul (mtr A) A in let AdG := AdevG A in
  let M : mat := fun _ _ => 0 in
  let M := setblock M 0 0 1 1 (fun _ _ => vd) in
  let M := setblock M 0 (2 + d) 1 1 (fun _ _ => r) in
  let M := setblock M 1 0 1 1 (fun _ _ => (E + r * Er) * vd) in
  let M := setblock M 1 1 1 1 (fun _ _ => (r * Ep + 1) * vd) in
  let M := setblock M 1 2 1 3 (fun _ j => r * vd * v j) in
  let M := addblock M 1 (2 + d) 1 1 (fun _ _ => r * E + p) in
  let M := setblock M 2 0 3 1 (fun i _ => vd * v i) in
  let M := setblock M 2 2 1 1 (fun _ _ => rvd) in
  let M := setblock M 3 3 1 1 (fun _ _ => rvd) in
  let M := setblock M 4 4 1 1 (fun _ _ => rvd) in
  let M := addblock M 2 (2 + d) 3 1 (fun i _ => r * v i) in
  let M := setblock M (2 + d) 1 1 1 (fun _ _ => 1) in
  let M := if VISCOUS o then
    let s := sigma_col Q d in let sr := dsigmadrho Q d in let psi := dEdA Q in let cs2 := c_s2 MP r in
    let dsA k ind := dsigmadA r cs2 A G AdG d k (ind / 3)%nat (ind mod 3)%nat in
    let M := setblock M 2 5 3 9 (fun k ind => - dsA k ind) in
    let M := setblock M 1 5 1 9 (fun _ ind => 0 - v 0%nat * dsA 0%nat ind - v 1%nat * dsA 1%nat ind - v 2%nat * dsA 2%nat ind) in
    let M := addblock M 1 0 1 1 (fun _ _ => - dot3 sr v) in
    let M := addblock M 1 2 1 3 (fun _ j => - s j) in
    let M := addblock M 1 5 1 9 (fun _ ind => r * vd * psi (ind / 3)%nat (ind mod 3)%nat) in
    let M := addblock M 2 0 3 1 (fun i _ => - sr i) in
    let M := setblock M (5 + d) 2 1 3 (fun _ j => A 0%nat j) in
    let M := setblock M (8 + d) 2 1 3 (fun _ j => A 1%nat j) in
    let M := setblock M (11 + d) 2 1 3 (fun _ j => A 2%nat j) in
    let M := setblock M (5 + d) 5 1 3 (fun _ j => v j) in
    let M := setblock M (8 + d) 8 1 3 (fun _ j => v j) in
    setblock M (11 + d) 11 1 3 (fun _ j => v j)
    else M in
  let M := if THERMAL o then
    let T := temperature_mg MP r p in let Tr := dTdrho MP r p in let Tp := dTdp MP r in
    let J : vec3 := fun i => get_rhoJ Q i / r in let H := dEdJ Q in
    let M := addblock M 1 0 1 1 (fun _ _ => Tr * H d) in
    let M := addblock M 1 1 1 1 (fun _ _ => Tp * H d) in
    let M := setblock M 1 14 1 3 (fun _ j => rvd * H j) in
    let M := addblock M 1 (14 + d) 1 1 (fun _ _ => ca2 MP * T) in
    let M := setblock M 14 0 3 1 (fun i _ => v d * J i) in
    let M := addblock M (14 + d) 0 1 1 (fun _ _ => Tr) in
    let M := setblock M (14 + d) 1 1 1 (fun _ _ => Tp) in
    let M := setblock M 14 (2 + d) 3 1 (fun i _ => r * J i) in
    let M := setblock M 14 14 1 1 (fun _ _ => rvd) in
    let M := setblock M 15 15 1 1 (fun _ _ => rvd) in
    setblock M 16 16 1 1 (fun _ _ => rvd)
    else M in
  if MULTI o then
    let l := Q (mV o) / r in
    let M := setblock M (mV o) 0 1 1 (fun _ _ => v d * l) in
    let M := setblock M (mV o) (2 + d) 1 1 (fun _ _ => r * l) in
    let M := setblock M (mV o) (mV o) 1 1 (fun _ _ => rvd) in
    if Z.ltb (-1) (REACTION P) then setblock M 1 (mV o) 1 1 (fun _ _ => Qc P * rvd) else M
  else M.
(** 100-152 *)
Definition dPdQ (Q : vec) : mat :=
  let r := Q 0%nat in let E := Q 1%nat / r in let v : vec3 := fun i => get_rhov Q i / r in
  let J : vec3 := fun i => get_rhoJ Q i / r in
  let Er := dEdrho Q in let Ep := dEdp Q in let G_ := 1 / (r * Ep) in
  let tmp := dot3 v v - (E + r * Er) + (if THERMAL o then ca2 MP * dot3 J J else 0) in
  let Y := G_ * tmp in
  let M : mat := fun i j => if Nat.eqb i j then 1 else 0 in
  let M := setblock M 1 0 1 1 (fun _ _ => Y) in
  let M := setblock M 1 1 1 1 (fun _ _ => G_) in
  let M := setblock M 1 2 1 3 (fun _ j => - G_ * v j) in
  let M := setblock M 2 0 3 1 (fun i _ => - v i / r) in
  let M := setblock M 2 2 1 1 (fun _ _ => 1 / r) in
  let M := setblock M 3 3 1 1 (fun _ _ => 1 / r) in
  let M := setblock M 4 4 1 1 (fun _ _ => 1 / r) in
  let M := if VISCOUS o then setblock M 1 5 1 9 (fun _ ind => - G_ * r * dEdA Q (ind / 3)%nat (ind mod 3)%nat) else M in
  let M := if THERMAL o then
    let H := dEdJ Q in
    let M := setblock M 1 14 1 3 (fun _ j => - G_ * H j) in
    let M := setblock M 14 0 3 1 (fun i _ => - J i / r) in
    let M := setblock M 14 14 1 1 (fun _ _ => 1 / r) in
    let M := setblock M 15 15 1 1 (fun _ _ => 1 / r) in
    setblock M 16 16 1 1 (fun _ _ => 1 / r)
    else M in
  if MULTI o then
    let l := Q (mV o) / r in
    let M := setblock M (mV o) 0 1 1 (fun _ _ => - l / r) in
    let M := setblock M (mV o) (mV o) 1 1 (fun _ _ => 1 / r) in
    if Z.ltb (-1) (REACTION P) then
      let M := addblock M 1 0 1 1 (fun _ _ => G_ * Qc P * l) in
      setblock M 1 (mV o) 1 1 (fun _ _ => - G_ * Qc P)
    else M
  else M.
End Phys.
