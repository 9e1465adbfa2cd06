(** Plane motion stays plane: the system matrix of the code, and the absolute value of a matrix. *)
From Coq Require Import Reals Lia Lra ZArith.
From Verif Require Import Base Options Sum Mat3 EqModel PhysModel PhysInst MirrorJac RestProps PlaneSpec PlaneProof PlaneProof2 PlaneJac.
From Verif Require StepperModel.
Import List ListNotations.
Open Scope R_scope.

Section Jac.
Variable o : options.
Variable e : nat.
Hypothesis He : (e < 3)%nat.
Hypothesis HV : VISCOUS o = true.
Notation plane := (plane o e).
Notation sided := (sided o e).
Notation across := (across o e).

Lemma block_sided q d : (d < 3)%nat -> d <> e -> plane q -> sided (block o q d).
Proof using He HV.
  intros Hd Hde H. pose proof (H _ (across_v o e)) as V0. unfold block. cbv zeta. rewrite HV.
  assert (S : forall r (m : mat), r = 5%nat \/ r = 8%nat \/ r = 11%nat -> sided m ->
    sided (fun i j => if (Nat.eqb i (r + d) && Nat.leb r j && Nat.ltb j (r + 3))%bool then m i j - q (2 + (j - r))%nat / q 0%nat else m i j)).
  { intros r m Hr Hm a b Hab. destruct (Nat.eqb_spec a (r + d)) as [->|], (Nat.leb_spec r b), (Nat.ltb_spec b (r + 3)); cbn [andb]; try (apply Hm, Hab).
    rewrite (Hm _ _ Hab). assert (b - r = e)%nat as ->; [|rewrite V0; unfold Rdiv; ring].
    assert (exists j, b = r + j /\ j < 3)%nat as (j & -> & Hj) by (exists (b - r)%nat; lia). replace (r + j - r)%nat with j by lia. clear - Hab Hde Hd Hj Hr He.
    destruct (Nat.eq_dec j e) as [|Hje]; [assumption|exfalso; apply Hab; clear Hab].
    destruct e as [|[|[|]]]; try lia; destruct d as [|[|[|]]]; try lia; destruct j as [|[|[|]]]; try lia; destruct Hr as [->|[->| ->]]; unfold PlaneSpec.across; destruct (THERMAL o); reflexivity. }
  assert (Z : sided (fun i j => if (true && Nat.leb 5 i && Nat.ltb i 14 && Nat.eqb i j)%bool then q (2 + d)%nat / q 0%nat else 0)).
  { intros a b Hab. destruct (Nat.eqb_spec a b) as [->|]; [contradiction Hab; reflexivity|]. rewrite Bool.andb_false_r. reflexivity. }
  intros a b Hab. assert (E : Nat.eqb a b = false) by (apply Nat.eqb_neq; intros ->; apply Hab; reflexivity).
  match goal with |- (if ?c then _ else _) = 0 => replace c with false by (rewrite E, Bool.andb_false_r; reflexivity) end.
  exact (S 11%nat _ (or_intror (or_intror eq_refl)) (S 8%nat _ (or_intror (or_introl eq_refl)) (S 5%nat _ (or_introl eq_refl) Z)) a b Hab).
Qed.
Lemma code_matrix_sided K sm sr ea m q d : (d < 3)%nat -> d <> e -> plane q -> sided (system_matrix o (gas_phys o K sm sr ea m) q d).
Proof using He HV.
  intros Hd Hde H a b Hab. unfold system_matrix. rewrite (block_sided q d Hd Hde H a b Hab). cbn [gas_phys gpr jacobian]. rewrite (jacobian_sided o _ sm e He HV q d Hd Hde H a b Hab). ring.
Qed.

(** An eigenvalue solver that is right about diagonalisable matrices keeps the plane there. *)
Lemma right_abs_plane (eigabs : EqModel.mat -> vec -> vec) n : (forall M Rt L l x, spectral n M Rt L l -> forall k, eigabs M x k = if Nat.ltb k n then absolute n Rt L l x k else 0) ->
  forall M x, (exists Rt L l, spectral n M Rt L l) -> sided M -> plane x -> plane (eigabs M x).
Proof using.
  clear. intros H M x (Rt & L & l & S) HM Hx k Hk. rewrite (H _ _ _ _ x S). destruct (Nat.ltb_spec k n) as [Hn|]; [|reflexivity].
  set (g := fun i => if across i then -1 else 1). assert (G : forall i, g i * g i = 1) by (intros i; unfold g; destruct (across i); ring).
  assert (S' : spectral n M (fun i k => g i * Rt i k) (fun k j => L k j * g j) l).
  { destruct S as (H1 & H2 & H3). split; [|split]; intros i j Hi Hj.
    - transitivity (g i * g j * M i j).
      + destruct (Bool.bool_dec (across i) (across j)) as [E|E]; [|rewrite (HM i j E); ring]. unfold g at 1 2. rewrite E. destruct (across j); ring.
      + rewrite (H1 i j Hi Hj), <- rsum_scal. apply rsum_ext. intros. ring.
    - rewrite (rsum_ext n _ (fun k => (g i * g j) * (Rt i k * L k j))) by (intros; ring). rewrite rsum_scal, H2 by assumption. destruct (Nat.eqb_spec i j) as [->|]; [rewrite G|]; ring.
    - rewrite <- (H3 i j Hi Hj). apply rsum_ext. intros a Ha. transitivity (L i a * Rt a j * (g a * g a)); [ring|rewrite G; ring]. }
  pose proof (absolute_unique n M _ _ _ _ _ _ x k S S' Hn) as U.
  assert (E : absolute n (fun i k => g i * Rt i k) (fun k j => L k j * g j) l x k = - absolute n Rt L l x k).
  { unfold absolute. rewrite <- rsum_opp. apply rsum_ext. intros i Hi. unfold g at 1. rewrite Hk. rewrite (rsum_ext n (fun j => L i j * g j * x j) (fun j => L i j * x j)); [ring|].
    intros j Hj. unfold g. destruct (across j) eqn:E; [rewrite (Hx j E)|]; ring. }
  rewrite E in U. lra.
Qed.
End Jac.
