(** Independent specifications for the DG predictor. *)
From Coq Require Import Reals.
From Coquelicot Require Import Coquelicot.
From Verif Require Import Base Options Sum PolyModel PolyProof LegendreSpec FvModel FvBody DgModel.
Import List ListNotations.
Open Scope nat_scope.

(** matrix [m] is completely written and has the entries f *)
Definition is_mtx (m : mtx) (r c : nat) (f : nat -> nat -> R) : Prop :=
  mrows m = r /\ mcols m = c /\ blen (mdat m) = r * c /\ forall i j, i < r -> j < c -> mget m i j = Ok (f i j).

(** index of a tuple in row-major (lexicographic) order, the first coordinate being the slowest *)
Fixpoint product (ds : list nat) : nat := match ds with [] => 1 | d :: ds' => d * product ds' end.
Fixpoint lex (ds is : list nat) : nat :=
  match ds, is with d :: ds', i :: is' => i * product ds' + lex ds' is' | _, _ => 0 end.
Fixpoint within (ds is : list nat) : Prop :=
  match ds, is with [], [] => True | d :: ds', i :: is' => i < d /\ within ds' is' | _, _ => False end.
Fixpoint entries (fs : list (nat -> nat -> R)) (is js : list nat) : R :=
  match fs, is, js with f :: fs', i :: is', j :: js' => (f i j * entries fs' is' js')%R | _, _, _ => 1%R end.

(** nodes and weights of a rule on [0,1] exact for polynomials with at most twice as many coefficients as nodes, with the
    interpolating basis computed from the nodes *)
Definition dg_basis (nodes : list R) (bs : list poly) (w : nat -> R) : Prop :=
  distinct nodes /\ basis_polys nodes = Ok bs /\ 1 <= length nodes /\
  forall p, length p <= 2 * length nodes -> is_RInt (evaluate p) 0 1 (quad (length nodes) (fun k => nth k nodes 0%R) w (evaluate p)).

(** iterates of a map *)
Fixpoint iter (G : nodal -> nodal) (m : nat) (q : nodal) : nodal := match m with O => q | S m => iter G m (G q) end.
(** the stopping criterion of the Picard iteration, on the first n rows *)
Definition close (o : options) (tol : R) (n : nat) (a b : nodal) : Prop :=
  forall r k, r < n -> k < V o -> (Rabs (a r k - b r k) <= tol * (1 + Rabs (b r k)))%R.
Definition apart_by (o : options) (n : nat) (a b : nodal) (d : R) : Prop :=
  forall r k, r < n -> k < V o -> (Rabs (a r k - b r k) <= d)%R.
