(** One time step of one material, written down cell by cell: what the boundary routine, the mask, the reconstruction, the
    half step or the predictor, the finite volume sums, the two relaxations and the threads must amount to. Cells have
    signed coordinates; cells 0 .. n-1 are those of the grid. *)
From Coq Require Import Reals ZArith List.
From Verif Require Import Base Options Sum EqModel FvBody FvSpec WenoModel DgModel GridSpec UtilsModel.
Import ListNotations.
Open Scope R_scope.

(** a function of rows that may be NaN, where it gives numbers *)
Definition at_numbers (f : num -> num) (q : vec) : vec := val (f (Some q)).

(** ** Reconstruction *)
Section Reconstruction.
Variable n : nat.
Variables (SIG : nat -> nat -> R) (LAMS LAMC EPS : R) (inv : stencil -> (nat -> R) -> nat -> R).
(** the stencils of n cells around a cell: leftmost, rightmost and, from n = 3 on, the central one, or the two central ones *)
Definition stencils : list stencil := [sL; sR] ++ (if Nat.ltb 2 n then sCL :: (if Nat.even n then [sCR] else []) else []).
Definition over_stencils (f : stencil -> R) : R := fold_right (fun s a => f s + a) 0 stencils.
(** nodal values of the polynomial with the averages [w] of the cells of a stencil; [w k] is the average at distance k - (n-1) *)
Definition fit (w : nat -> R) (s : stencil) : nat -> R := inv s (fun k => w (off n s + k)%nat).
Definition oscillation (c : nat -> R) : R := rsum n (fun i => rsum n (fun j => c i * SIG i j * c j)).
Definition trust (w : nat -> R) (s : stencil) : R := (match s with sL | sR => LAMS | _ => LAMC end) / (oscillation (fit w s) + EPS) ^ 8.
Definition reconstruct (w : nat -> R) (i : nat) : R := over_stencils (fun s => fit w s i * trust w s) / over_stencils (trust w).

Variable prim : option ((num -> num) * (num -> num)).
(** what is reconstructed, and what the nodal values are turned into *)
Definition before (q : vec) : vec := match prim with Some (p, _) => at_numbers p q | None => q end.
Definition after (q : vec) : vec := match prim with Some (_, c) => at_numbers c q | None => q end.
(** the nodal values in the cell at z of the field E *)
Definition block1 (E : Z -> vec) (z : Z) : nodal := fun s =>
  after (fun v => reconstruct (fun k => before (E (z - Z.of_nat n + 1 + Z.of_nat k)%Z) v) s).
(** in 2-D: along x for every line, then along y; node (a, b) is the (a n + b)-th *)
Definition block2 (E : Z -> Z -> vec) (x y : Z) : nodal := fun s =>
  after (fun v => reconstruct (fun l => reconstruct (fun k => before (E (x - Z.of_nat n + 1 + Z.of_nat k) (y - Z.of_nat n + 1 + Z.of_nat l))%Z v) (s / n)%nat) (s mod n)%nat).
End Reconstruction.

Section Step.
Variable o : options.
Variables NODES WGHTS : nat -> R.
Variables ENDVALS DERVALS : nat -> nat -> R.
Variables (SIG : nat -> nat -> R) (LAMS LAMC EPS : R) (inv : stencil -> (nat -> R) -> nat -> R).
Variable wallf : nat -> nat -> num -> num.
Variable ph : phys.
Variable prim : option ((num -> num) * (num -> num)).
Variable predict : nat -> list num -> res (option (nat -> option nodal)).
(** the relaxation over half the step *)
Variable ode : num -> num.
Variables (SPLIT HALF : bool) (FLUX : nat) (bt : nat -> nat) (dt : R).
(** where the constitutive functions give numbers *)
Variable valid : nodal -> bool.
Notation N := (Options.N o).
Notation block1 := (block1 N SIG LAMS LAMC EPS inv prim).
Notation block2 := (block2 N SIG LAMS LAMC EPS inv prim).
Notation F q d := (flux o ph (fun _ => 0) q d).

(** the half step: q - dt/2 (d/dx F(q) + B(q) dq/dx) *)
Definition half1 (dx : R) (q : nodal) : nodal := fun s k =>
  q s k - dt / 2 * ((derivs1d o DERVALS (fun r => F (q r) 0) s k + noncons o (q s) (derivs1d o DERVALS q s) 0 k) / dx).
Definition half2 (dx dy : R) (q : nodal) : nodal := fun s k =>
  q s k - dt / 2 * ((derivs2d o DERVALS (fun r => F (q r) 0) 0 s k + noncons o (q s) (derivs2d o DERVALS q 0 s) 0 k) / dx
                  + (derivs2d o DERVALS (fun r => F (q r) 1) 1 s k + noncons o (q s) (derivs2d o DERVALS q 1 s) 1 k) / dy).
(** the predictor's block at time node t *)
Definition predicted (ndim : nat) (q : nodal) (t : nat) : nodal :=
  match predict ndim (map (fun s => Some (q s)) (seq 0 (N ^ ndim))) with
  | Ok (Some f) => match f t with Some r => r | None => fun _ _ => 0 end
  | _ => fun _ _ => 0
  end.

Definition relaxed (q : vec) : vec := if SPLIT then at_numbers ode q else q.
Definition weight_at (t : nat) : R := if SPLIT then dt else dt * WGHTS t.
Definition time_nodes : nat := if SPLIT then 1%nat else N.

(** *** 1-D: field x of n cells, mask m *)
Section One.
Variables (n : nat) (dx : R) (x : nat -> vec) (m : nat -> bool).
(** the field with its boundary conditions *)
Definition extended1 (z : Z) : vec := val (extend1 num wallf (bt 0%nat) (bt 1%nat) 0 (Z.of_nat n) (fun y => Some (x (Z.to_nat y))) z).
(** the masked cells and their neighbours; outside the grid, as in the nearest cell of the grid *)
Definition spread1 (z : Z) : bool :=
  let c := Z.to_nat (Z.max 0 (Z.min z (Z.of_nat n - 1))) in
  existsb (fun k => m k && Nat.leb k (S c) && Nat.leb c (S k))%bool (seq 0 n).
(** what the finite volume sums see in the cell at z *)
Definition seen1 (z : Z) (t : nat) : nodal :=
  let q := block1 (fun z => relaxed (extended1 z)) z in
  if SPLIT then (if (spread1 z && HALF)%bool then half1 dx q else q) else predicted 1 q t.
(** the cell before the relaxation that ends the step, and after it *)
Definition raw1 (c : nat) : vec := fun k =>
  fv1 o ph NODES WGHTS ENDVALS DERVALS (negb SPLIT) FLUX time_nodes weight_at dx
    (fun i => seen1 (Z.of_nat i - 1)) (fun i => spread1 (Z.of_nat i - 1)) (fun c => relaxed (x c)) c k.
Definition new1 (c : nat) : vec := relaxed (raw1 c).
(** the relaxation, the half step and the predictor give numbers on the states that this step hands to them *)
Definition met1 : Prop :=
  if SPLIT then
    (forall z, (- Z.of_nat N <= z < Z.of_nat n + Z.of_nat N)%Z -> exists v, ode (Some (extended1 z)) = Some v) /\
    (forall c, (c < n)%nat -> exists v, ode (Some (x c)) = Some v) /\
    (forall c, (c < n)%nat -> exists v, ode (Some (raw1 c)) = Some v) /\
    (HALF = true -> forall z q, (-1 <= z <= Z.of_nat n)%Z -> spread1 z = true ->
      (forall s, (s < N)%nat -> q s = block1 (fun z => relaxed (extended1 z)) z s) -> valid q = true)
  else
    forall z, (-1 <= z <= Z.of_nat n)%Z -> spread1 z = true ->
      exists f, predict 1 (map (fun s => Some (block1 extended1 z s)) (seq 0 (N ^ 1))) = Ok (Some f) /\ forall t, (t < N)%nat -> exists q, f t = Some q.
End One.

(** *** 2-D: field x of nx * ny cells *)
Section Two.
Variables (nx ny : nat) (dx dy : R) (x : nat -> nat -> vec) (m : nat -> nat -> bool).
Definition extended2 (a b : Z) : vec := val (extend2 num wallf bt (Z.of_nat nx) (Z.of_nat ny) (fun a b => Some (x (Z.to_nat a) (Z.to_nat b))) a b).
(** the masked cells and their face neighbours, also outside the grid *)
Definition spread2 (a b : Z) : bool :=
  existsb (fun k => existsb (fun l => m k l && (Z.abs (a - Z.of_nat k) + Z.abs (b - Z.of_nat l) <=? 1)%Z)%bool (seq 0 ny)) (seq 0 nx).
Definition seen2 (a b : Z) (t : nat) : nodal :=
  let q := block2 (fun a b => relaxed (extended2 a b)) a b in
  if SPLIT then (if (spread2 a b && HALF)%bool then half2 dx dy q else q) else predicted 2 q t.
Definition raw2 (a b : nat) : vec := fun k =>
  fv2 o ph NODES WGHTS ENDVALS DERVALS (negb SPLIT) FLUX time_nodes weight_at dx dy
    (fun i j => seen2 (Z.of_nat i - 1) (Z.of_nat j - 1)) (fun i j => spread2 (Z.of_nat i - 1) (Z.of_nat j - 1)) (fun a b => relaxed (x a b)) a b k.
Definition new2 (a b : nat) : vec := relaxed (raw2 a b).
Definition met2 : Prop :=
  if SPLIT then
    (forall a b, (- Z.of_nat N <= a < Z.of_nat nx + Z.of_nat N)%Z -> (- Z.of_nat N <= b < Z.of_nat ny + Z.of_nat N)%Z -> exists v, ode (Some (extended2 a b)) = Some v) /\
    (forall a b, (a < nx)%nat -> (b < ny)%nat -> exists v, ode (Some (x a b)) = Some v) /\
    (forall a b, (a < nx)%nat -> (b < ny)%nat -> exists v, ode (Some (raw2 a b)) = Some v) /\
    (HALF = true -> forall a b q, (-1 <= a <= Z.of_nat nx)%Z -> (-1 <= b <= Z.of_nat ny)%Z -> spread2 a b = true ->
      (forall s, (s < N ^ 2)%nat -> q s = block2 (fun a b => relaxed (extended2 a b)) a b s) -> valid q = true)
  else
    forall a b, (-1 <= a <= Z.of_nat nx)%Z -> (-1 <= b <= Z.of_nat ny)%Z -> spread2 a b = true ->
      exists f, predict 2 (map (fun s => Some (block2 extended2 a b s)) (seq 0 (N ^ 2))) = Ok (Some f) /\ forall t, (t < N)%nat -> exists q, f t = Some q.
End Two.
End Step.
