(** Model of /repo/code/cpp/src/system/energy/multi.cpp: the state of a mixture of two materials. *)
From Coq Require Import Reals.
From Verif Require Import Base Options Sum PhysModel KrylovModel.
Open Scope R_scope.

(** the density of the second material that line 13 (and line 58) computes from that of the first *)
Definition other_density (rho l r1 : R) : R := (1 - l) / (1 / rho - l / r1).

(** multi.cpp 7-24; components 0 and 1 of a Vec2 *)
Definition mix_obj (MP1 MP2 : params) (rho e l : R) (x : dv) : dv :=
  let p := x 0%nat in let r1 := x 1%nat in let r2 := other_density rho l r1 in
  let e1 := E_1 MP1 r1 p in let e2 := E_1 MP2 r2 p in
  let T1 := temperature_mg MP1 r1 p in let T2 := temperature_mg MP2 r2 p in
  fun i => match i with O => e - l * e1 - (1 - l) * e2 | _ => T1 - T2 end.

(** multi.cpp 26-30 *)
Definition average_pressure (P : par) (rho e l : R) : R :=
  cmax (l * pressure_mg (prm P) rho e + (1 - l) * pressure_mg (MP2 P) rho e) 0.

(** multi.cpp 32-62; the decompositions inside nonlin_solve are Eigen's *)
Definition solve_multi (o : options) (P : par) (qr : nat -> nat -> dmat -> dmat * dmat) (lsolve : nat -> dmat -> dv -> dv) (junk : dv)
    (Q : vec) : res (R * R * R) :=
  let rho := Q 0%nat in let e := internal_energy o P Q in let l := Q (mV o) / rho in
  if Req_EM_T l 1 then Ok (cmax (pressure_mg (prm P) rho e) 0, rho, rho)
  else if Req_EM_T l 0 then Ok (cmax (pressure_mg (MP2 P) rho e) 0, rho, rho)
  else
    let x0 : dv := fun i => match i with O => average_pressure P rho e l | _ => rho end in
    '(st, _) <- nonlin_solve 2 (mix_obj (prm P) (MP2 P) rho e l) qr lsolve junk default_tols x0 ;;
    let p := nx st 0%nat in let r1 := nx st 1%nat in
    Ok (p, r1, other_density rho l r1).

(** the total function that the rest of the model uses ([solve_multi] always returns, see MixProps.v) *)
Definition mixture (o : options) (P : par) qr lsolve junk (Q : vec) : R * R * R :=
  match solve_multi o P qr lsolve junk Q with Ok x => x | _ => (0, 0, 0) end.
