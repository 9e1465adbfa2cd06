(** C18, the shipped options in 2-D: an ADER step on a periodic grid does not conserve mass. With NO_CORNERS the ghost rows
    next to the corners use one stencil only, chosen by the position in the grid (weno.cpp 93-103, 116-119), so a ghost cell
    and the cell it is an image of get different reconstructions and the fluxes through opposite sides differ. *)
From Coq Require Import Reals Lia Lra ZArith FunctionalExtensionality Psatz.
From Verif Require Import Base Options Sum EqModel EqSpec FvModel FvBody FvSpec FvProof FvProps PolyModel WenoModel WenoProps
  DgModel DgSpec DgProof2 DgProof3 DgProps StepperModel GridModel AderModel AderProof4 AderProps HomogModel SplitProps CornerProof CornerProof2 CornerProof3 CornerProof4.
Import List ListNotations.
Open Scope R_scope.

(** an ideal gas without viscosity and heat conduction; [max_abs_eigs] is the speed of the fastest acoustic wave *)
Definition gas_p (Q : vec) : R := 2 / 5 * (Q 1%nat - (Q 2%nat * Q 2%nat + Q 3%nat * Q 3%nat + Q 4%nat * Q 4%nat) / (2 * Q 0%nat)).
Definition gas : phys := {| pressure := gas_p; sigma := fun _ _ _ => 0; temperature := fun _ _ => 0; calpha2 := 0; source := fun _ _ => 0;
  max_abs_eigs := fun Q d => Rabs (velocity Q d) + sqrt (7 / 5 * gas_p Q / Q 0%nat); jacobian := fun _ _ _ _ => 0; eigabs := fun _ x => x |}.

Definition rest_state : vec := fun k => if Nat.eqb k 1 then 5 / 2 else 0.
Lemma gas_at_rest r : at_rest gas 1 (dens rest_state r).
Proof. unfold at_rest. repeat split. cbn [gas pressure]. unfold gas_p, dens, rest_state. cbn [Nat.eqb]. unfold Rdiv. rewrite !Rmult_0_l, !Rplus_0_l, Rmult_0_l. field. Qed.
Lemma gas_speed r : max_abs_eigs gas (dens rest_state r) 0 = sqrt (7 / 5 / r).
Proof.
  cbn [gas max_abs_eigs]. assert (E : gas_p (dens rest_state r) = 1) by (apply (gas_at_rest r)). rewrite E.
  replace (velocity (dens rest_state r) 0%nat) with 0 by (unfold velocity, dens, rest_state; cbn [Nat.eqb Nat.add]; unfold Rdiv; ring).
  rewrite Rabs_R0, Rplus_0_l. unfold dens. cbn [Nat.eqb]. f_equal. unfold Rdiv. ring.
Qed.

Lemma gas_hc r : 1 / 2 <= r <= 3 / 2 -> at_rest gas 1 (dens rest_state r).
Proof. intros _. apply gas_at_rest. Qed.
Lemma gas_hm r s : 1 / 2 <= r -> r < s -> s <= 3 / 2 -> max_abs_eigs gas (dens rest_state s) 0 < max_abs_eigs gas (dens rest_state r) 0.
Proof.
  intros Hr Hs _. rewrite !gas_speed. apply sqrt_lt_1_alt. split.
  - left. apply Rdiv_lt_0_compat; lra.
  - unfold Rdiv. apply Rmult_lt_compat_l; [lra|]. apply Rinv_lt_contravar; [|exact Hs]. apply Rmult_lt_0_compat; lra.
Qed.
(** the mass gained through the sides in x, per dt, does not vanish, and dy can be chosen such that the sides in y do not
    make up for it *)
Lemma choose_dy (A B : R) : A <> 0 -> exists dy, dy <> 0 /\ A / 1 + B / dy <> 0.
Proof. intros HA. destruct (Req_EM_T (A + B) 0) as [E|E]; [exists 2|exists 1]; split; lra. Qed.
Lemma initial_total e z : total2 4 3 (fun a b => dens e (rho0 z ((a * 3 + b) / 3) ((a * 3 + b) mod 3))) 0 = total2 4 3 (fun a b => dens e (rho0 z a b)) 0.
Proof.
  unfold total2. apply rsum_ext. intros a Ha. apply rsum_ext. intros b Hb. rewrite Nat.div_add_l by lia. rewrite (Nat.div_small b 3 Hb), Nat.add_0_r.
  rewrite Nat.add_comm, Nat.mod_add by lia. rewrite (Nat.mod_small b 3 Hb). reflexivity.
Qed.

(** For every two-node basis and every exact solver of the predictor's linear system, and for every dt, there are a grid and a
    field of this gas for which the step succeeds, all hypotheses of [ader_periodic_conserves_2d_partial] but
    NO_CORNERS = false hold, and the total mass changes. *)
Theorem ader_periodic_conserves_2d_refuted nodes bs w inv SIG LAMS LAMC EPS DG_IT DG_TOL solve nonlin_solve nan_far wallf dt :
  length nodes = N shipped -> dg_basis nodes bs w -> weno_setup nodes bs inv SIG LAMS LAMC EPS ->
  (1 <= DG_IT)%nat -> 0 <= DG_TOL -> solver_of shipped nodes bs w solve 2 -> dt <> 0 ->
  exists dX u ub0 ub mask x u' x',
    runs shipped 0 dX /\ NO_CORNERS shipped = true /\
    holds (4 * 3) u x /\ full_mask [4; 3]%nat mask /\ blen ub0 = extended_dimensions [4; 3]%nat (N shipped) /\
    boundaries num (N shipped) wallf u ub0 [4; 3]%nat (fun _ => PERIODIC) = Ok ub /\
    ader_step shipped gas (fun k => nth k nodes 0%R) w (end_values bs) (Dv bs nodes) 0 dt dX SIG LAMS LAMC EPS inv None
      (Dmat bs (fun k => nth k nodes 0%R) w) (Mof nodes bs w) DG_IT DG_TOL solve nonlin_solve (fun _ => true) nan_far false false u ub mask [4; 3]%nat = Ok u' /\
    holds (4 * 3) u' x' /\ conserved shipped 0 /\ (forall Q, source gas Q 0%nat = 0) /\
    total2 4 3 (fun a b => x' (a * 3 + b)%nat) 0 <> total2 4 3 (fun a b => x (a * 3 + b)%nat) 0.
Proof.
  intros HN HB HW HI HTol HS Hdt. set (e := rest_state). set (z := 9 / 10). assert (Hz : 9 / 10 <= z < 1) by (unfold z; lra).
  pose proof gas_hc as HC. pose proof gas_hm as HM. fold e in HC, HM.
  assert (LK := chx_leaks gas 1 e HC HM nodes bs w HN HB inv SIG LAMS LAMC EPS HW z Hz).
  set (A := chx gas e nodes bs w inv SIG LAMS LAMC EPS z) in *. set (B := chy gas e nodes bs w inv SIG LAMS LAMC EPS z).
  destruct (choose_dy A B LK) as (dy & Hdy & Sum). set (dX := fun d : nat => if Nat.eqb d 0 then 1 else dy).
  destruct (step_mass gas 1 e HC nodes bs w HN HB inv SIG LAMS LAMC EPS HW dt dX DG_IT DG_TOL solve nonlin_solve (fun _ => true) nan_far HI HTol HS (fun _ _ => eq_refl) wallf z Hz ltac:(cbn; lra) Hdy)
    as (ub & u' & x' & Eb & Es & Hu' & T).
  exists dX, (u0 e z), ub0, ub, mask0, (fun a => dens e (rho0 z (a / 3) (a mod 3))), u', x'.
  split; [split; [reflexivity|]; split; [lia|]; split; [cbn; lra|exact Hdy]|]. split; [reflexivity|].
  split; [split; reflexivity|]. split; [exact mask0_full|]. split; [reflexivity|]. split; [exact Eb|]. split; [exact Es|]. split; [exact Hu'|].
  split; [left; lia|]. split; [reflexivity|].
  rewrite T, initial_total. fold A B. change (dX 0%nat) with 1. change (dX 1%nat) with dy. intros Eq.
  assert (X : dt * (A / 1 + B / dy) = 0) by (unfold Rdiv in *; lra). apply Rmult_integral in X. destruct X as [X|X]; [exact (Hdt X)|exact (Sum X)].
Qed.
Print Assumptions ader_periodic_conserves_2d_refuted.

(** C75, the same for the split step, with or without the half step of the reconstruction. There is nothing to relax in this
    gas. *)
Theorem split_periodic_conserves_2d_refuted nodes bs w inv SIG LAMS LAMC EPS HALF wallf dt :
  length nodes = N shipped -> dg_basis nodes bs w -> weno_setup nodes bs inv SIG LAMS LAMC EPS -> dt <> 0 ->
  exists dX u ub0 ub mask x u' x',
    runs shipped 0 dX /\ NO_CORNERS shipped = true /\
    holds (4 * 3) u x /\ full_mask [4; 3]%nat mask /\ blen ub0 = extended_dimensions [4; 3]%nat (N shipped) /\
    boundaries num (N shipped) wallf u ub0 [4; 3]%nat (fun _ => PERIODIC) = Ok ub /\
    split_step shipped gas (Dv bs nodes) dt dX (fun _ => true) (fun k => nth k nodes 0%R) w (end_values bs) 0 SIG LAMS LAMC EPS inv None (fun x => x) HALF
      u ub mask [4; 3]%nat = Ok u' /\
    holds (4 * 3) u' x' /\ conserved shipped 0 /\ adds (fun x => x) 0 0 /\
    total2 4 3 (fun a b => x' (a * 3 + b)%nat) 0 <> total2 4 3 (fun a b => x (a * 3 + b)%nat) 0 + INR (4 * 3) * (2 * 0).
Proof.
  intros HN HB HW Hdt. set (e := rest_state). set (z := 9 / 10). assert (Hz : 9 / 10 <= z < 1) by (unfold z; lra).
  pose proof gas_hc as HC. pose proof gas_hm as HM. fold e in HC, HM.
  assert (LK := chx_leaks gas 1 e HC HM nodes bs w HN HB inv SIG LAMS LAMC EPS HW z Hz).
  set (A := chx gas e nodes bs w inv SIG LAMS LAMC EPS z) in *. set (B := chy gas e nodes bs w inv SIG LAMS LAMC EPS z).
  destruct (choose_dy A B LK) as (dy & Hdy & Sum). set (dX := fun d : nat => if Nat.eqb d 0 then 1 else dy).
  destruct (split_mass gas 1 e HC nodes bs w HN HB inv SIG LAMS LAMC EPS HW dt dX (fun _ => true) (fun _ _ => eq_refl) HALF wallf z Hz ltac:(cbn; lra) Hdy)
    as (ub & u' & x' & Eb & Es & Hu' & T).
  exists dX, (u0 e z), ub0, ub, mask0, (fun a => dens e (rho0 z (a / 3) (a mod 3))), u', x'.
  split; [split; [reflexivity|]; split; [lia|]; split; [cbn; lra|exact Hdy]|]. split; [reflexivity|].
  split; [split; reflexivity|]. split; [exact mask0_full|]. split; [reflexivity|]. split; [exact Eb|]. split; [exact Es|]. split; [exact Hu'|].
  split; [left; lia|]. split; [intros v y [= <-]; ring|].
  rewrite T, initial_total. fold A B. change (dX 0%nat) with 1. change (dX 1%nat) with dy. intros Eq.
  assert (X : dt * (A / 1 + B / dy) = 0) by (unfold Rdiv in *; lra). apply Rmult_integral in X. destruct X as [X|X]; [exact (Hdt X)|exact (Sum X)].
Qed.
Print Assumptions split_periodic_conserves_2d_refuted.

(** the hypotheses hold for the two-node Gauss basis and the constants of options.h *)
Example corner_setup : exists nodes bs w inv SIG solve, length nodes = N shipped /\ dg_basis nodes bs w /\ weno_setup nodes bs inv SIG 1 100000 (1 / 100) /\
  solver_of shipped nodes bs w solve 2.
Proof.
  destruct dg_basis_hyps as [nodes [bs [w [G L]]]]. pose proof G as [Dn [Bn _]]. destruct (weno_hyps nodes Dn ltac:(lia)) as [bs' [inv [SIG HW]]].
  pose proof HW as [_ [Bn' _]]. rewrite Bn in Bn'. injection Bn' as <-. destruct (two_node_solver_2d shipped nodes bs w G eq_refl L) as [solve S].
  exists nodes, bs, w, inv, SIG, (fun _ => solve). split; [exact L|]. split; [exact G|]. split; [exact HW|exact S].
Qed.
