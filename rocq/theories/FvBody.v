(** Model of /repo/code/cpp/src/solvers/fv/fv.cpp: what is added to a cell. The loops are in FvModel.v, the equations in
    EqModel.v; endpts2d and derivs2d are /repo/code/cpp/src/solvers/poly/evaluations.cpp. *)
From Coq Require Import Reals.
From Verif Require Import Base Options Sum EqModel FvModel.
Import List ListNotations.
Open Scope R_scope.

(** a block: the values at the N (1-D) or N*N (2-D) nodes *)
Definition nodal := nat -> vec.

Section Body.
Variable o : options.
Variable ph : phys.
Variables NODES WGHTS : nat -> R.
Variables ENDVALS DERVALS : nat -> nat -> R.
Notation Bdot := (Bdot o).
Notation Bint := (Bint o NODES WGHTS).
Notation D := (D o ph NODES WGHTS).

Variables (SOURCES TIME : bool) (FLUX : nat) (dt : R).

(** evaluations.cpp 3-18 *)
Definition derivs2d (qh : nodal) (d : nat) : nodal := fun s k =>
  let a := (s / N o)%nat in let b := (s mod N o)%nat in
  match d with
  | O => rsum (N o) (fun r => DERVALS a r * qh (r * N o + b)%nat k)
  | _ => rsum (N o) (fun r => DERVALS b r * qh (a * N o + r)%nat k)
  end.
(** evaluations.cpp 20-35 *)
Definition endpts2d (qh : nodal) (d e : nat) : nodal := fun s k =>
  match d with
  | O => rsum (N o) (fun r => ENDVALS e r * qh (r * N o + s)%nat k)
  | _ => rsum (N o) (fun r => ENDVALS e r * qh (s * N o + r)%nat k)
  end.
(** ENDVALS.row(e) * qh, DERVALS * qh: fv.cpp 24, 126-127 *)
Definition endpts1d (qh : nodal) (e : nat) : vec := fun k => rsum (N o) (fun r => ENDVALS e r * qh r k).
Definition derivs1d (qh : nodal) : nodal := fun s k => rsum (N o) (fun r => DERVALS s r * qh r k).

(** weight of time node t: fv.cpp 49-53, 103-108, 155-159, 273-278 *)
Definition wt (t : nat) : R := if TIME then dt * WGHTS t else dt.

(** u += x, u -= x *)
Definition inc (x : vec) : vec -> vec := fun u k => u k + x k.
Definition dec (x : vec) : vec -> vec := fun u k => u k - x k.

Fixpoint collect {A} (n : nat) (f : nat -> res A) : res (list A) :=
  match n with O => Ok [] | S m => l <- collect m f ;; a <- f m ;; Ok (l ++ [a]) end.

Definition S0 (q : vec) : vec := if SOURCES then source ph q else fun _ => 0.

(** fv.cpp 22-41: the increment of node s *)
Definition center1 (dx : R) (t : nat) (qh : nodal) : res (list (vec -> vec)) :=
  collect (N o) (fun s =>
    tmpx <- Bdot (qh s) (derivs1d qh s) 0 ;;
    Ok (inc (fun k => wt t * WGHTS s * (S0 (qh s) k - tmpx k / dx)))).

(** fv.cpp 69-94 *)
Definition center2 (dx dy : R) (t : nat) (qh : nodal) : res (list (vec -> vec)) :=
  collect (N o * N o) (fun s =>
    let a := (s / N o)%nat in let b := (s mod N o)%nat in
    tmpx <- Bdot (qh s) (derivs2d qh 0 s) 0 ;;
    tmpy <- Bdot (qh s) (derivs2d qh 1 s) 1 ;;
    Ok (inc (fun k => wt t * WGHTS a * WGHTS b * (S0 (qh s) k - tmpx k / dx - tmpy k / dy)))).

(** fv.cpp 115-146 *)
Definition face1 (dx : R) (d t : nat) (qhl qhr : nodal) : res ((vec -> vec) * (vec -> vec)) :=
  let k := wt t / (2 * dx) in
  let ql := endpts1d qhl 1 in let qr := endpts1d qhr 0 in
  f <- D FLUX ql qr 0 ;;
  b <- Bint ql qr 0 ;;
  Ok (dec (fun c => k * (b c + f c)), dec (fun c => k * (b c - f c))).

(** fv.cpp 193-224 (d = 0) and 233-264 (d = 1); h is dx or dy *)
Definition face2 (dx dy : R) (d t : nat) (qh0 qh1 : nodal) : res ((vec -> vec) * (vec -> vec)) :=
  let h := match d with O => dx | _ => dy end in
  let W s := wt t / (2 * h) * WGHTS s in
  let q0 := endpts2d qh0 d 1 in let q1 := endpts2d qh1 d 0 in
  u0 <- vsum (N o) (fun s => f <- D FLUX (q0 s) (q1 s) d ;; b <- Bint (q0 s) (q1 s) d ;; Ok (fun c => W s * (b c + f c))) ;;
  u1 <- vsum (N o) (fun s => f <- D FLUX (q0 s) (q1 s) d ;; b <- Bint (q0 s) (q1 s) d ;; Ok (fun c => W s * (b c - f c))) ;;
  Ok (dec u0, dec u1).

(** fv.cpp 281-297 *)
Definition fv_step (dX : nat -> R) (u : buf vec) (rec : buf nodal) (mask : buf bool) (nX : list nat) : res (buf vec) :=
  match nX with
  | [_] => fv_launcher vec nodal (N o) (center1 (dX 0%nat)) (face1 (dX 0%nat)) TIME u rec mask nX
  | _ => fv_launcher vec nodal (N o) (center2 (dX 0%nat) (dX 1%nat)) (face2 (dX 0%nat) (dX 1%nat)) TIME u rec mask nX
  end.
End Body.
