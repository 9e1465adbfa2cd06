(** The finite volume formula, written down independently of the loops of fv.cpp. *)
From Coq Require Import Reals.
From Verif Require Import Base Options Sum Mat3 EqModel EqSpec FvBody.
Open Scope R_scope.

(** B(Q) x in direction d: rows of the distortion are advected and their d-th entry replaced by - v . (row) + v_d x,
    level sets are advected, nothing else *)
Definition noncons (o : options) (Q x : vec) (d k : nat) : R :=
  let v := velocity Q in
  if (Nat.leb 5 k && Nat.ltb k 14)%bool then
    let i := ((k - 5) / 3)%nat in let j := ((k - 5) mod 3)%nat in
    v d * x k - delta j d * sum3 (fun m => v m * x (5 + 3 * i + m)%nat)
  else if (Nat.leb (V o - LSET o) k && Nat.ltb k (V o))%bool then v d * x k
  else 0.

(** weight of time node t: the quadrature weights times dt in the predictor-based step, dt in the split step *)
Definition tw (WGHTS : nat -> R) (TIME : bool) (dt : R) (t : nat) : R := if TIME then dt * WGHTS t else dt.

Section S.
Variable o : options.
Variable ph : phys.
Variables NODES WGHTS : nat -> R.
Variables ENDVALS DERVALS : nat -> nat -> R.
Variables (SOURCES : bool) (FLUX : nat).

(** straight-line path integral of B from qL to qR *)
Definition jump (qL qR : vec) (d k : nat) : R :=
  let dq : vec := fun i => qR i - qL i in
  rsum (N o) (fun i => WGHTS i * noncons o (fun c => qL c + NODES i * dq c) dq d k).
(** the numerical flux through a face: half of what D_OSH, D_ROE or D_RUS returns *)
Definition numflux (qL qR : vec) (d k : nat) : R :=
  match D o ph NODES WGHTS FLUX qL qR d with Ok f => f k / 2 | _ => 0 end.
Definition src (q : vec) (k : nat) : R := if SOURCES then source ph q k else 0.
Definition on (b : bool) (x : R) : R := if b then x else 0.

(** 1-D: what enters a cell through its own volume, and what leaves it to the right / enters it from the left through a
    face between the blocks l and r *)
Definition volume1 (dx : R) (q : nodal) (k : nat) : R :=
  rsum (N o) (fun s => WGHTS s * (src (q s) k - noncons o (q s) (derivs1d o DERVALS q s) 0 k / dx)).
Definition out1 (l r : nodal) (k : nat) : R :=
  let qL := endpts1d o ENDVALS l 1 in let qR := endpts1d o ENDVALS r 0 in numflux qL qR 0 k + jump qL qR 0 k / 2.
Definition in1 (l r : nodal) (k : nat) : R :=
  let qL := endpts1d o ENDVALS l 1 in let qR := endpts1d o ENDVALS r 0 in numflux qL qR 0 k - jump qL qR 0 k / 2.

(** 2-D *)
Definition volume2 (dx dy : R) (q : nodal) (k : nat) : R :=
  rsum (N o) (fun a => rsum (N o) (fun b => let s := (a * N o + b)%nat in
    WGHTS a * WGHTS b * (src (q s) k - noncons o (q s) (derivs2d o DERVALS q 0 s) 0 k / dx - noncons o (q s) (derivs2d o DERVALS q 1 s) 1 k / dy))).
Definition out2 (d : nat) (l r : nodal) (k : nat) : R :=
  let qL := endpts2d o ENDVALS l d 1 in let qR := endpts2d o ENDVALS r d 0 in
  rsum (N o) (fun s => WGHTS s * (numflux (qL s) (qR s) d k + jump (qL s) (qR s) d k / 2)).
Definition in2 (d : nat) (l r : nodal) (k : nat) : R :=
  let qL := endpts2d o ENDVALS l d 1 in let qR := endpts2d o ENDVALS r d 0 in
  rsum (N o) (fun s => WGHTS s * (numflux (qL s) (qR s) d k - jump (qL s) (qR s) d k / 2)).

(** the new value of cell c in 1-D; [w t] is the weight of time node t, [q i t] the block of the i-th cell of the extended
    grid, [m] the extended mask *)
Definition fv1 (nt : nat) (w : nat -> R) (dx : R) (q : nat -> nat -> nodal) (m : nat -> bool) (x : nat -> vec) (c k : nat) : R :=
  let face i := (m i && m (S i))%bool in
  x c k + rsum nt (fun t => w t * on (m (S c)) (volume1 dx (q (S c) t) k))
  - rsum nt (fun t => w t / dx * (on (face (S c)) (out1 (q (S c) t) (q (S (S c)) t) k) - on (face c) (in1 (q c t) (q (S c) t) k))).

(** the same in 2-D; [q i j t], [m i j] by coordinates of the extended grid *)
Definition fv2 (nt : nat) (w : nat -> R) (dx dy : R) (q : nat -> nat -> nat -> nodal) (m : nat -> nat -> bool) (x : nat -> nat -> vec) (a b k : nat) : R :=
  let i := S a in let j := S b in
  x a b k + rsum nt (fun t => w t * on (m i j) (volume2 dx dy (q i j t) k))
  - rsum nt (fun t => w t / dx * (on (m i j && m (S i) j)%bool (out2 0 (q i j t) (q (S i) j t) k) - on (m a j && m i j)%bool (in2 0 (q a j t) (q i j t) k)))
  - rsum nt (fun t => w t / dy * (on (m i j && m i (S j))%bool (out2 1 (q i j t) (q i (S j) t) k) - on (m i b && m i j)%bool (in2 1 (q i b t) (q i j t) k))).
End S.
