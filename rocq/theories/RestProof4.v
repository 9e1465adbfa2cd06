(** A fluid at rest: the relaxation of the split solver, and the fluxes of Roe and Osher. *)
From Coq Require Import Reals Lia Lra ZArith FunctionalExtensionality.
From Coquelicot Require Import Coquelicot.
From Verif Require Import Base Options Sum Mat3 EqModel EqSpec EqProof FvSpec FvProps WenoModel PhysModel PhysInst PhysSpec UtilsModel RelaxModel RelaxSpec FrameProof Split3Props PhysProps MirrorProof5 RefSpec RestSpec RestProof RestProof3.
Import List ListNotations.
Open Scope R_scope.

(** Eigen's decomposition, for multiples of the identity *)
Definition decomposes_still (E0 : R) (svd : mat3 -> mat3 * vec3 * mat3) : Prop := forall q, resting E0 q -> svd_of (get_A q) (svd (get_A q)).
Lemma still_values E0 q U s W i : resting E0 q -> svd_of (get_A q) (U, s, W) -> (i < 3)%nat -> s i = Rabs (q 5%nat).
Proof.
  intros Hq HS Hi. set (a := q 5%nat). set (g := if Rle_dec 0 a then 1 else -1).
  assert (G : g * g = 1) by (unfold g; destruct (Rle_dec 0 a); ring).
  assert (GA : g * Rabs a = a) by (unfold g; destruct (Rle_dec 0 a) as [L|L]; [rewrite Rabs_right by lra; ring|rewrite Rabs_left by lra; ring]).
  assert (O : forall c, c * c = 1 -> PhysSpec.orthogonal (fun i j => if Nat.eqb i j then c else 0)).
  { intros c Hc. split; intros x y Hx Hy; unfold mmul, mtr, sum3, id3, delta; (destruct x as [|[|[|x]]]; try lia); (destruct y as [|[|[|y]]]; try lia); cbn [Nat.eqb]; nra. }
  apply (values_unique (get_A q) (get_A q) (fun i j => if Nat.eqb i j then g else 0) U (fun i j => if Nat.eqb i j then 1 else 0) W (fun _ => Rabs a) s); try assumption.
  - intros x y _ _. reflexivity.
  - split; [apply O, G|]. split; [apply O; ring|]. split; [|split; [unfold descending; lra|apply Rabs_pos]].
    intros x y Hx Hy. rewrite (A_still E0 q x y Hq Hx Hy). fold a. unfold assemble, diag, mmul, mtr, sum3.
    destruct x as [|[|[|x]]]; try lia; (destruct y as [|[|[|y]]]; try lia); cbn [Nat.eqb]; lra.
Qed.

(** The relaxation does nothing to a state at rest: the singular values are equal, so analytic.cpp finds no anisotropy. *)
Theorem relaxation_still o P K sm z svd E0 h q : decomposes_still E0 svd -> THERMAL o = false -> REACTION P = (-1)%Z -> (forall i, (i < 3)%nat -> body P i = 0) -> resting E0 q ->
  code_relaxation o P K sm z svd h (Some q) = Some q.
Proof.
  intros HS HT HR HB Hq. unfold code_relaxation, ode_cell, ode_stepper_analytic.
  assert (EB : body_forces P q h = q).
  { apply functional_extensionality. intros k. unfold body_forces, setseg. destruct (Nat.leb_spec 2 k), (Nat.ltb_spec k (2 + 3)); cbn [andb]; try reflexivity.
    rewrite HB by lia. replace (2 + (k - 2))%nat with k by lia. ring. }
  rewrite EB. assert (EA : (if VISCOUS o then relax_distortion P svd q h else Some q) = Some q).
  { destruct (VISCOUS o); [|reflexivity]. unfold relax_distortion, relax_A. pose proof (HS q Hq) as D. destruct (svd (get_A q)) as [[U s] W] eqn:ES.
    pose proof (still_values E0 q U s W 0 Hq D ltac:(lia)) as S0. pose proof (still_values E0 q U s W 1 Hq D ltac:(lia)) as S1. pose proof (still_values E0 q U s W 2 Hq D ltac:(lia)) as S2.
    assert (EP : put_A q (get_A q) = q).
    { apply functional_extensionality. intros k. unfold put_A, setseg, get_A. destruct (Nat.leb_spec 5 k), (Nat.ltb_spec k (5 + 9)); cbn [andb]; try reflexivity.
      f_equal. pose proof (Nat.div_mod (k - 5) 3 ltac:(lia)). lia. }
    cbv zeta. destruct (Req_EM_T _ 0); [cbn [obind]; rewrite EP; reflexivity|]. rewrite S0, S1, S2.
    destruct (Rle_dec _ _) as [L|L]; [exfalso|cbn [obind]; rewrite EP; reflexivity].
    match type of L with ?x <= ?y => assert (Z : y = 0) by (unfold Rdiv; ring); assert (0 < x) by (apply Rinv_0_lt_compat, pow_lt; lra) end. lra. }
  rewrite EA. cbn [obind]. rewrite HT. unfold ode_stepper_numerical. rewrite HR. change (-1 <? -1)%Z with false. reflexivity.
Qed.
Corollary relaxation_calm o P K sm z svd E0 h : decomposes_still E0 svd -> THERMAL o = false -> REACTION P = (-1)%Z -> (forall i, (i < 3)%nat -> body P i = 0) -> calm_wall E0 (code_relaxation o P K sm z svd h).
Proof. intros HS HT HR HB q Hq. unfold at_numbers. rewrite (relaxation_still _ _ _ _ _ _ E0 h q HS HT HR HB Hq). split; [exact Hq|reflexivity]. Qed.

(** ** Roe and Osher: the dissipation sees only what moves *)
(** a weighted sum of the matrices of the system at states at rest *)
Definition rest_matrix (range : R -> Prop) (o : options) (ph : phys) (E0 : R) (M : EqModel.mat) : Prop := exists n c q d, (d < 2)%nat /\ (forall i, (i < n)%nat -> resting E0 (q i) /\ range (q i 0%nat)) /\
  M = fun a b => rsum n (fun i => c i * system_matrix o ph (q i) d a b).
(** |M| x = 0 whenever M x = 0, for the product fluxes.cpp computes with the eigenvalues and eigenvectors of such a matrix M *)
Definition kills_kernel (range : R -> Prop) (o : options) (ph : phys) (E0 : R) : Prop := forall M x, rest_matrix range o ph E0 M ->
  (forall i, (i < V o)%nat -> rsum (V o) (fun j => M i j * x j) = 0) -> forall k, eigabs ph M x k = 0.
(** so it is if the rows of L are left eigenvectors of M, with eigenvalues l, and the product is Rm |l| L x *)
Lemma exact_kills range o ph E0 : (forall M, rest_matrix range o ph E0 M -> exists (Rm L : EqModel.mat) (l : nat -> R),
    (forall a j, (a < V o)%nat -> (j < V o)%nat -> rsum (V o) (fun i => L a i * M i j) = l a * L a j) /\
    forall x k, eigabs ph M x k = if Nat.ltb k (V o) then rsum (V o) (fun a => Rm k a * (Rabs (l a) * rsum (V o) (fun j => L a j * x j))) else 0) -> kills_kernel range o ph E0.
Proof.
  intros H M x HM Hx k. destruct (H M HM) as (Rm & L & l & HL & ->). destruct (Nat.ltb k (V o)); [|reflexivity]. apply rsum_zero. intros a Ha.
  assert (Z : l a * rsum (V o) (fun j => L a j * x j) = 0).
  { rewrite <- rsum_scal. rewrite (rsum_ext (V o) _ (fun j => rsum (V o) (fun i => L a i * (M i j * x j)))).
    - rewrite rsum_swap. apply rsum_zero. intros i Hi. rewrite rsum_scal, Hx by exact Hi. ring.
    - intros j Hj. rewrite <- Rmult_assoc, <- HL by assumption. rewrite <- rsum_scal_r. apply rsum_ext. intros; ring. }
  apply Rmult_integral in Z. destruct Z as [Z|Z]; [rewrite Z, Rabs_R0|rewrite Z]; ring.
Qed.
(** a difference of states at rest does not change the flux, to first order *)
Definition still_jacobian (range : R -> Prop) (o : options) (ph : phys) (E0 : R) : Prop := forall q x d i, (d < 2)%nat -> (i < V o)%nat -> resting E0 q -> range (q 0%nat) -> resting 0 x ->
  rsum (V o) (fun j => EqModel.jacobian ph q d i j * x j) = 0.
Definition between_range (range : R -> Prop) (N : nat) (NODES : nat -> R) : Prop := forall a b i, (i < N)%nat -> range a -> range b -> range (a + NODES i * (b - a)).

Section Exact.
Variable range : R -> Prop.
Hypothesis HD : forall r, range r -> r <> 0.
Variable o : options.
Variable ph : phys.
Variables (E0 p0 : R).
Hypothesis HV : VISCOUS o = true.
Hypothesis HT : THERMAL o = false.
Hypothesis HR : rests range ph E0 p0.
Variables NODES WGHTS : nat -> R.
Hypothesis HC : between_range range (N o) NODES.
Hypothesis HJ : still_jacobian range o ph E0.
Hypothesis HK : kills_kernel range o ph E0.
Lemma system_still q x d i : (d < 2)%nat -> (i < V o)%nat -> resting E0 q -> range (q 0%nat) -> resting 0 x -> rsum (V o) (fun j => system_matrix o ph q d i j * x j) = 0.
Proof using HV HJ.
  intros Hd Hi Hq Hr Hx. destruct (bdot_is_block_partial o q x d HV ltac:(lia)) as (r & _ & B). destruct (B i Hi) as [B1 B2].
  rewrite (rsum_ext (V o) _ (fun j => EqModel.jacobian ph q d i j * x j + block o q d i j * x j)) by (intros; unfold system_matrix; ring).
  rewrite rsum_plus, HJ by assumption. rewrite <- B1, B2, (noncons_still o E0) by (lia || assumption). ring.
Qed.
Lemma exact_mild FLUX : FLUX = 1%nat \/ FLUX = 2%nat -> mild range o ph E0 p0 NODES WGHTS (fun x => forall k, x k = 0) FLUX.
Proof using HD HV HT HR HC HJ HK.
  intros HF qL qR d Hd HL HRr L0 R0 k. unfold numflux.
  assert (DX : resting 0 (fun k => qL k - qR k)) by (apply (resting_diff E0); assumption).
  assert (PT : forall i, (i < N o)%nat -> resting E0 (fun k => qR k + NODES i * (qL k - qR k)) /\ range (qR 0%nat + NODES i * (qL 0%nat - qR 0%nat))) by (intros i Hi; split; [apply resting_between; assumption|apply HC; assumption]).
  assert (FF : forall f : vec, (forall k, f k = 0) -> flux o ph (flux o ph f qL d) qR d k / 2 - still_flux p0 d k = 0).
  { intros f Hf. replace f with (fun _ : nat => 0) by (apply functional_extensionality; intros; symmetry; apply Hf).
    pose proof (flux_still range HD o ph E0 p0 HV HT HR qL d k Hd HL L0) as FL. pose proof (flux_still range HD o ph E0 p0 HV HT HR qR d k Hd HRr R0) as FR.
    rewrite (flux_spec o ph HV) by (lia || apply HD, R0). rewrite (flux_spec o ph HV) in FR by (lia || apply HD, R0).
    destruct (MULTI o && (k =? mV o))%bool eqn:EM; [|rewrite FL; lra].
    (* the concentration: flux sets it rather than adding to it *)
    apply andb_prop in EM as [_ EM]. apply Nat.eqb_eq in EM. subst k.
    assert (Z0 : still_flux p0 d (mV o) = 0) by (unfold still_flux, mV; rewrite HV; cbn [b2n]; replace (Nat.eqb _ _) with false by (symmetry; apply Nat.eqb_neq; lia); reflexivity). rewrite Z0 in *. lra. }
  destruct HF as [->| ->]; cbn [D]; apply FF; clear k FF.
  - intros k. apply HK; [exists (N o), WGHTS, (fun i k => qR k + NODES i * (qL k - qR k)), d; split; [exact Hd|]; split; [exact PT|reflexivity]|]. intros i Hi.
    rewrite (rsum_ext (V o) _ (fun j => rsum (N o) (fun s => WGHTS s * (system_matrix o ph (fun k => qR k + NODES s * (qL k - qR k)) d i j * (qL j - qR j))))) by (intros j Hj; rewrite <- rsum_scal_r; apply rsum_ext; intros; ring).
    rewrite rsum_swap. apply rsum_zero. intros s Hs. rewrite rsum_scal. rewrite system_still; [ring|lia|exact Hi|apply PT, Hs|apply PT, Hs|exact DX].
  - intros k. apply rsum_zero. intros s Hs. rewrite HK; [ring| |].
    { exists 1%nat, (fun _ => 1), (fun _ k => qR k + NODES s * (qL k - qR k)), d. split; [exact Hd|]. split; [intros; apply PT, Hs|]. apply functional_extensionality. intros a. apply functional_extensionality. intros b. cbn [rsum]. ring. }
    intros i Hi. apply system_still; [lia|exact Hi|apply PT, Hs|apply PT, Hs|exact DX].
Qed.
End Exact.

(** the fluid of the code *)
Lemma positive_near q0 x0 : 0 < q0 -> locally (0 : R) (fun t : R => 0 < q0 + t * x0).
Proof.
  intros H. assert (P : 0 < q0 / (1 + Rabs x0)) by (apply Rdiv_lt_0_compat; [exact H|pose proof (Rabs_pos x0); lra]). exists (mkposreal _ P). intros t Ht.
  change (Rabs (t - 0) < q0 / (1 + Rabs x0)) in Ht. rewrite Rminus_0_r in Ht. pose proof (Rabs_pos x0) as A. pose proof (Rabs_pos t) as B.
  assert (X : Rabs t * (1 + Rabs x0) < q0) by (apply (Rmult_lt_compat_r (1 + Rabs x0)) in Ht; [|lra]; replace (q0 / (1 + Rabs x0) * (1 + Rabs x0)) with q0 in Ht by (field; lra); exact Ht).
  pose proof (Rle_abs (- (t * x0))) as C. rewrite Rabs_Ropp, Rabs_mult in C. nra.
Qed.
Theorem stiffened_gas_jacobian o P K sm specrad eigabs E0 : VISCOUS o = true -> THERMAL o = false -> PMULTI P = false -> REACTION P = (-1)%Z -> kind (prm P) = STIFFENED_GAS ->
  (forall i, (i < 3)%nat -> body P i = 0) -> 0 < rho0 (prm P) -> gam (prm P) <> 1 -> b02 (prm P) <> 0 ->
  still_jacobian (fun r => 0 < r) o (gpr o P sm specrad eigabs (source_or_zero o P K sm)) E0.
Proof.
  intros HV HT HM HR HK HB H0 HG Hb q x d i Hd Hi Hq Hr Hx. set (ph := gpr o P sm specrad eigabs (source_or_zero o P K sm)).
  assert (RE : rests (fun r => 0 < r) ph E0 ((gam (prm P) - 1) * (E0 - pINF (prm P)) - pINF (prm P))) by (apply stiffened_gas_rests; try assumption; intros; lra).
  destruct (jacobians_partial o P sm specrad eigabs (source_or_zero o P K sm) (fun k t => q k + t * x k) x 0 d) as (_ & DF & _).
  - split; [exact HV|]. split; [exact HM|]. rewrite HR. lia.
  - intros k. auto_derive; [exact I|ring].
  - unfold eos_ok. rewrite HK, Rmult_0_l, Rplus_0_r. auto.
  - unfold Gamma_MG. rewrite HK. lra.
  - exact Hb.
  - rewrite HT. discriminate.
  - lia.
  - specialize (DF i Hi). cbv zeta in DF. fold ph in DF.
    replace (at_time (fun k t => q k + t * x k) 0) with q in DF by (apply functional_extensionality; intros; unfold at_time; ring).
    apply is_derive_unique in DF. rewrite <- DF. transitivity (Derive (fun _ : R => still_flux ((gam (prm P) - 1) * (E0 - pINF (prm P)) - pINF (prm P)) d i) 0); [|apply Derive_const].
    apply Derive_ext_loc. apply (filter_imp (fun t : R => 0 < q 0%nat + t * x 0%nat)); [|apply positive_near, Hr].
    intros t Ht. apply (flux_still (fun r => 0 < r) ltac:(intros; lra) o ph E0 _ HV HT RE); [exact Hd| |exact Ht].
    unfold at_time. apply resting_plus; [exact Hq|]. apply resting_scal, Hx.
Qed.
