(** Vocabulary for the properties of the main loop. *)
From Coq Require Import Reals ZArith List.
Import ListNotations.
From Verif Require Import Base Options Mat3 PhysModel UtilsModel.
Open Scope R_scope.

(** one grid and one mask of [n] cells per material *)
Definition shaped (n : nat) (MPs : list matpar) (grids : list grid) (masks : list (list bool)) : Prop :=
  List.length grids = List.length MPs /\ List.length masks = List.length MPs /\
  (forall g, In g grids -> List.length g = n) /\ (forall m, In m masks -> List.length m = n).
(** [q] is the state of the [mat]-th material, which is [m] and not the void, in the masked cell [i] *)
Definition active (MPs : list matpar) (grids : list grid) (masks : list (list bool)) (mat i : nat) (q : vec) (m : matpar) : Prop :=
  nth_error MPs mat = Some m /\ mp_void m = false /\
  (exists k, nth_error masks mat = Some k /\ nth_error k i = Some true) /\
  (exists g, nth_error grids mat = Some g /\ nth_error g i = Some q).
(** the sum over the directions of wave speed over spacing, from the first direction on *)
Fixpoint speed_sum (c : nat -> R) (d : nat) (dX : list R) : R :=
  match dX with [] => 0 | h :: dX => c d / h + speed_sum c (S d) dX end.

(** the state of material [mat] in cell [i] *)
Definition cell_of (grids : list grid) (mat i : nat) : vec := nth i (nth mat grids []) (fun _ => 0).
(** the materials whose mask covers cell [i] *)
Definition covering (masks : list (list bool)) (nmat i : nat) : list nat :=
  filter (fun mat => nth i (nth mat masks []) false) (seq 0 nmat).
Fixpoint rsum_over (f : nat -> R) (l : list nat) : R := match l with [] => 0 | a :: l => f a + rsum_over f l end.
