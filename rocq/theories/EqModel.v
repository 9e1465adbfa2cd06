(** Model of /repo/code/cpp/src/system/equations.cpp (flux, block, Bdot, system_matrix) and of
    /repo/code/cpp/src/solvers/fv/fluxes.cpp. A state is a vector of reals indexed by component (doubles are modelled
    as reals). The constitutive functions are the fields of [phys]; they are arbitrary here. *)
From Coq Require Import Reals.
From Verif Require Import Base Options Sum.
Open Scope R_scope.

Definition mat := nat -> nat -> R.

Record phys := mkphys {
  pressure : vec -> R;                    (* variables/state.cpp pressure *)
  sigma : vec -> nat -> vec;              (* variables/state.cpp sigma(Q, MP, d) *)
  temperature : R -> R -> R;              (* variables/state.cpp temperature_prim *)
  calpha2 : R;                            (* MP.cα2 *)
  source : vec -> vec;                    (* equations.cpp 50-67 *)
  max_abs_eigs : vec -> nat -> R;         (* eig.cpp *)
  jacobian : vec -> nat -> mat;           (* the product dFdP * dPdQ in system_matrix, equations.cpp 169-176 *)
  eigabs : mat -> vec -> vec              (* Re (R |L| R^-1 x) for the eigendecomposition Eigen returns, fluxes.cpp 34-37, 55-59 *)
}.

Section Eq.
Variable o : options.
Variable ph : phys.
(** quadrature nodes and weights of the basis *)
Variables NODES WGHTS : nat -> R.

Definition bump (i : nat) (x : R) (r : vec) : vec := upd r i (r i + x).

(** equations.cpp 11-48, statement by statement. Line 46 assigns to [ret(mV)], the others add. The fixed offsets 5..13
    and 14..16 presuppose VISCOUS. *)
Definition flux (ret Q : vec) (d : nat) : vec :=
  let rho := Q 0%nat in
  let p := pressure ph Q in
  let vd := Q (2 + d)%nat / rho in
  let ret := bump 0 (Q (2 + d)%nat) ret in
  let ret := bump 1 (vd * (Q 1%nat + p)) ret in
  let ret := bump 4 (vd * Q 4%nat) (bump 3 (vd * Q 3%nat) (bump 2 (vd * Q 2%nat) ret)) in
  let ret := bump (2 + d) p ret in
  let ret :=
    if VISCOUS o then
      let sd := sigma ph Q d in
      let Av (i : nat) := (Q (5 + 3 * i)%nat * Q 2%nat + Q (5 + 3 * i + 1)%nat * Q 3%nat + Q (5 + 3 * i + 2)%nat * Q 4%nat) / rho in
      let ret := bump 1 (- ((sd 0%nat * Q 2%nat + sd 1%nat * Q 3%nat + sd 2%nat * Q 4%nat) / rho)) ret in
      let ret := bump 4 (- sd 2%nat) (bump 3 (- sd 1%nat) (bump 2 (- sd 0%nat) ret)) in
      bump (11 + d) (Av 2%nat) (bump (8 + d) (Av 1%nat) (bump (5 + d) (Av 0%nat) ret))
    else ret in
  let ret :=
    if THERMAL o then
      let T := temperature ph rho p in
      let ret := bump 1 (calpha2 ph * T * Q (14 + d)%nat / rho) ret in
      let ret := bump 16 (vd * Q 16%nat) (bump 15 (vd * Q 15%nat) (bump 14 (vd * Q 14%nat) ret)) in
      bump (14 + d) T ret
    else ret in
  if MULTI o then upd ret (mV o) (Q (mV o) * vd) else ret.

(** equations.cpp 89-147: the rows of A, then the level sets *)
Definition level_sets (w : R) (x : vec) (k : nat) : R :=
  if (Nat.leb (V o - LSET o) k && Nat.ltb k (V o))%bool then w * x k else 0.
Definition B0dot (x : vec) (v : nat -> R) : vec := fun k =>
  match k with
  | 5%nat => - v 1%nat * x 6%nat - v 2%nat * x 7%nat
  | 6%nat => v 0%nat * x 6%nat
  | 7%nat => v 0%nat * x 7%nat
  | 8%nat => - v 1%nat * x 9%nat - v 2%nat * x 10%nat
  | 9%nat => v 0%nat * x 9%nat
  | 10%nat => v 0%nat * x 10%nat
  | 11%nat => - v 1%nat * x 12%nat - v 2%nat * x 13%nat
  | 12%nat => v 0%nat * x 12%nat
  | 13%nat => v 0%nat * x 13%nat
  | _ => level_sets (v 0%nat) x k
  end.
Definition B1dot (x : vec) (v : nat -> R) : vec := fun k =>
  match k with
  | 5%nat => v 1%nat * x 5%nat
  | 6%nat => - v 0%nat * x 5%nat - v 2%nat * x 7%nat
  | 7%nat => v 1%nat * x 7%nat
  | 8%nat => v 1%nat * x 8%nat
  | 9%nat => - v 0%nat * x 8%nat - v 2%nat * x 10%nat
  | 10%nat => v 1%nat * x 10%nat
  | 11%nat => v 1%nat * x 11%nat
  | 12%nat => - v 0%nat * x 11%nat - v 2%nat * x 13%nat
  | 13%nat => v 1%nat * x 13%nat
  | _ => level_sets (v 1%nat) x k
  end.
Definition B2dot (x : vec) (v : nat -> R) : vec := fun k =>
  match k with
  | 5%nat => v 2%nat * x 5%nat
  | 6%nat => v 2%nat * x 6%nat
  | 7%nat => - v 0%nat * x 5%nat - v 1%nat * x 6%nat
  | 8%nat => v 2%nat * x 8%nat
  | 9%nat => v 2%nat * x 9%nat
  | 10%nat => - v 0%nat * x 8%nat - v 1%nat * x 9%nat
  | 11%nat => v 2%nat * x 11%nat
  | 12%nat => v 2%nat * x 12%nat
  | 13%nat => - v 0%nat * x 11%nat - v 1%nat * x 12%nat
  | _ => level_sets (v 2%nat) x k
  end.

(** equations.cpp 149-167. Without VISCOUS the output is never written: every caller passes an uninitialised vector
    and then reads it. *)
Definition Bdot (Q x : vec) (d : nat) : res vec :=
  if VISCOUS o then
    let v := fun i => Q (2 + i)%nat / Q 0%nat in
    match d with
    | O => Ok (B0dot x v) | 1%nat => Ok (B1dot x v) | 2%nat => Ok (B2dot x v)
    | _ => UB "Bdot: result not written"
    end
  else UB "Bdot: result not written".

(** equations.cpp 69-87 applied to a zero matrix; the rows 5 + d, 8 + d, 11 + d are decremented after the diagonal is set *)
Definition block (Q : vec) (d : nat) : mat :=
  let vd := Q (2 + d)%nat / Q 0%nat in
  let m0 : mat := fun i j => if (VISCOUS o && Nat.leb 5 i && Nat.ltb i 14 && Nat.eqb i j)%bool then vd else 0 in
  let sub (r : nat) (m : mat) : mat := fun i j =>
    if (Nat.eqb i (r + d) && Nat.leb r j && Nat.ltb j (r + 3))%bool then m i j - Q (2 + (j - r))%nat / Q 0%nat else m i j in
  let m1 := if VISCOUS o then sub 11%nat (sub 8%nat (sub 5%nat m0)) else m0 in
  fun i j => if (Nat.leb (V o - LSET o) i && Nat.ltb i (V o) && Nat.eqb i j)%nat%bool then vd else m1 i j.

(** equations.cpp 169-176 *)
Definition system_matrix (Q : vec) (d : nat) : mat := fun i j => jacobian ph Q d i j + block Q d i j.

(** sum over i < n of vectors that may be undefined *)
Fixpoint vsum (n : nat) (f : nat -> res vec) : res vec :=
  match n with O => Ok (fun _ => 0) | S m => a <- vsum m f ;; b <- f m ;; Ok (fun k => a k + b k) end.
Definition scale (c : R) (x : vec) : vec := fun k => c * x k.

(** fluxes.cpp 9-20 *)
Definition Bint (qL qR : vec) (d : nat) : res vec :=
  let dq : vec := fun k => qR k - qL k in
  vsum (N o) (fun i => tmp <- Bdot (fun k => qL k + NODES i * dq k) dq d ;; Ok (scale (WGHTS i) tmp)).

(** fluxes.cpp 22-44 *)
Definition D_OSH (qL qR : vec) (d : nat) : vec :=
  let dq : vec := fun k => qL k - qR k in
  let f : vec := fun k => rsum (N o) (fun i => WGHTS i * eigabs ph (system_matrix (fun k => qR k + NODES i * dq k) d) dq k) in
  flux (flux f qL d) qR d.
(** fluxes.cpp 46-64 *)
Definition D_ROE (qL qR : vec) (d : nat) : vec :=
  let dq : vec := fun k => qL k - qR k in
  let J : mat := fun a b => rsum (N o) (fun i => WGHTS i * system_matrix (fun k => qR k + NODES i * dq k) d a b) in
  flux (flux (eigabs ph J dq) qL d) qR d.
(** fluxes.cpp 66-75 (and again 77-86) *)
Definition D_RUS (qL qR : vec) (d : nat) : vec :=
  let m := Rmax (max_abs_eigs ph qL d) (max_abs_eigs ph qR d) in
  flux (flux (fun k => m * (qL k - qR k)) qL d) qR d.

(** the switches in fv.cpp 129-140, 202-213, 242-253; any other value leaves [f] uninitialised *)
Definition D (FLUX : nat) (qL qR : vec) (d : nat) : res vec :=
  match FLUX with
  | O => Ok (D_RUS qL qR d) | 1%nat => Ok (D_ROE qL qR d) | 2%nat => Ok (D_OSH qL qR d)
  | _ => UB "flux function not selected"
  end.
End Eq.
