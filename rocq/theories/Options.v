(** Model of /repo/code/cpp/src/options.h: every compile-time constant is a field, so a theorem about an
    arbitrary [options] covers every configuration of the program. *)
From Coq Require Import Reals Lra List Arith Lia Bool.
Open Scope nat_scope.

Definition b2n (b : bool) : nat := if b then 1 else 0.

Record options := mkopt {
  VISCOUS : bool; THERMAL : bool; MULTI : bool; LSET : nat;      (* options.h 5-8 *)
  NO_CORNERS : bool; DESTRESS : bool;                            (* options.h 11-12 *)
  N : nat                                                        (* options.h 15 *)
}.

(** options.h 34-35 *)
Definition V (o : options) : nat := 5 + b2n (VISCOUS o) * 9 + b2n (THERMAL o) * 3 + b2n (MULTI o) + LSET o.
Definition mV (o : options) : nat := 5 + b2n (VISCOUS o) * 9 + b2n (THERMAL o) * 3.

(** the configuration in the repository *)
Definition shipped : options := mkopt true false false 2 true false 2.
Example shipped_V : V shipped = 16 /\ mV shipped = 14. Proof. split; reflexivity. Qed.

(** A state vector (VecV) and a grid of states. Components and cells beyond the size are never meaningful. *)
Definition vec := nat -> R.

(** system/functions/vectors.cpp 24-31 *)
Definition get_material_index (o : options) (Q : vec) : nat :=
  List.length (List.filter (fun i => if Rle_dec 0 (Q i) then true else false) (seq (V o - LSET o) (LSET o))).
