(** What it means that a space-time polynomial satisfies the equations of the model at the nodes of a cell. Space and time
    run over the unit interval: dx, dy and dt are the lengths of the cell and of the step. *)
From Coq Require Import Reals.
From Coquelicot Require Import Coquelicot.
From Verif Require Import Base Options Sum PolyModel PolyProof EqModel FvModel FvBody FvSpec WenoModel DgModel FaceProps.
Import List ListNotations.
Open Scope R_scope.

Section S.
Variables (o : options) (ph : phys) (nodes : list R) (bs : list poly) (w : nat -> R).
Notation n := (N o).
Notation x s := (nth s nodes 0).
Notation F d Q := (flux o ph (fun _ => 0) Q d).

(** the polynomial in time and space with the value q_{m n + i} at the time node m and the node i *)
Definition field1 (q : nodal) (t z : R) (k : nat) : R := interp2 n bs q t z k.
(** the same in the plane; q_{(m n + i) n + j} is the value at the time node m and the node (i, j) *)
Definition field2 (q : nodal) (t z y : R) (k : nat) : R :=
  rsum n (fun m => evaluate (nth m bs []) t * interp2 n bs (fun s => q (m * (n * n) + s)%nat) z y k).
(** the polynomials through the fluxes at the nodes, at the time node m *)
Definition flux1 (q : nodal) (m : nat) (z : R) (k : nat) : R := interp1 n bs (fun i => F 0 (q (m * n + i)%nat)) z k.
Definition flux2 (d : nat) (q : nodal) (m : nat) (z y : R) (k : nat) : R := interp2 n bs (fun s => F d (q (m * (n * n) + s)%nat)) z y k.

(** the rate of change given by the equations, S(q) - B(q) . grad q - div F(q), at a node *)
Definition rate1 (dx : R) (q : nodal) (m i k : nat) : R :=
  let Q := q (m * n + i)%nat in
  source ph Q k - noncons o Q (fun c => Derive (fun z => field1 q (x m) z c) (x i) / dx) 0 k - Derive (fun z => flux1 q m z k) (x i) / dx.
Definition rate2 (dx dy : R) (q : nodal) (m i j k : nat) : R :=
  let Q := q ((m * n + i) * n + j)%nat in
  source ph Q k - noncons o Q (fun c => Derive (fun z => field2 q (x m) z (x j) c) (x i) / dx) 0 k
                - noncons o Q (fun c => Derive (fun y => field2 q (x m) (x i) y c) (x j) / dy) 1 k
                - Derive (fun z => flux2 0 q m z (x j) k) (x i) / dx - Derive (fun y => flux2 1 q m (x i) y k) (x j) / dy.

(** The defect of the equations at a node: time derivative against rate, and a penalty for missing the initial value w0.
    [p] gives the rate and [q] the time derivative; they are the same field for an exact solution of the scheme. *)
Definition defect1 (dt dx : R) (w0 p q : nodal) (m i k : nat) : R :=
  w m * (dt * rate1 dx p m i k - Derive (fun t => field1 q t (x i) k) (x m)) - evaluate (nth m bs []) 0 * (field1 q 0 (x i) k - w0 i k).
Definition defect2 (dt dx dy : R) (w0 p q : nodal) (m i j k : nat) : R :=
  w m * (dt * rate2 dx dy p m i j k - Derive (fun t => field2 q t (x i) (x j) k) (x m)) - evaluate (nth m bs []) 0 * (field2 q 0 (x i) (x j) k - w0 (i * n + j)%nat k).
End S.
