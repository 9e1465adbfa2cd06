(** Model of the level-set helpers of /repo/code/cpp/src/multi/functions.cpp. *)
From Verif Require Import Base Options FmmModel.
Open Scope nat_scope.

(** functions.cpp 7-12 *)
Definition sign (x : R) : Z := if Rle_dec x 0 then (-1)%Z else 1%Z.

(** functions.cpp 61: [u.col(k) = phi], one cell after the other *)
Definition set_col (ncell k : nat) (b : buf R) (u : nat -> vec) : res (nat -> vec) :=
  for_loop ncell 0 (fun i u => v <- rd b i ;; Ok (upd u i (upd (u i) k v))) u.

(** functions.cpp 56-63 *)
Definition renormalize_levelsets (o : options) (u : nat -> vec) (dX : list R) (nX : list nat) : res (nat -> vec) :=
  for_loop (LSET o) 0 (fun i u =>
    let k := V o - LSET o + i in
    phi <- distance nX dX (fun c => u c k) ;;
    set_col (size_ nX) k phi u) u.
