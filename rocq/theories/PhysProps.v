(** Properties C47 - C52 and C54: the constitutive relations, their derivatives and the source terms. *)
From Coq Require Import Reals ZArith Lra Psatz Lia.
From Coquelicot Require Import Coquelicot.
From Verif Require Import Base Options Sum Mat3 PhysModel PhysInst PhysSpec PhysProof PhysProof2 PhysProof3 PhysProof4 PhysProof5 PhysProof6.
From Verif Require EqModel EqSpec EqProof FvProps.
Import List ListNotations.
Open Scope R_scope.

(** a family of parameters for the examples: one per equation of state, reference temperature [T] *)
Definition demo (k : eos) (T : R) : params :=
  mkparams k 1 T 1 1 2 1 3 1 1 (7 / 5) 1 1 2 3 1 1 1 1 1 1 1.
Definition demo_par (k : eos) (T : R) : par := mkpar (demo k T) false false false false (fun _ => 0) (demo k T) (-1) 0.
Example demo_ok k T : eos_ok (demo k T) 2 /\ Gamma_MG (demo k T) 2 <> 0.
Proof. unfold eos_ok, Gamma_MG. destruct k; cbn; repeat split; intros; lra. Qed.

(** ** C47 *)
(** Everything but the temperature's density derivative, for which the reference temperature must vanish. *)
Theorem eos_derivatives_partial MP r p : eos_ok MP r -> Gamma_MG MP r <> 0 -> cv MP <> 0 ->
  is_derive (Gamma_MG MP) r (dGamma_MG MP r) /\
  is_derive (p_ref MP) r (dp_ref MP r) /\
  is_derive (e_ref MP) r (de_ref MP r) /\
  is_derive (fun t : R => E_1 MP t p) r (dedrho MP r p) /\
  is_derive (fun t : R => E_1 MP r t) p (dedp MP r) /\
  is_derive (fun t : R => temperature_mg MP r t) p (dTdp MP r) /\
  (Tref MP = 0 -> is_derive (fun t : R => temperature_mg MP t p) r (dTdrho MP r p)) /\
  is_derive (c_s2 MP) r (dc_s2drho MP r) /\
  is_derive (C_0 MP) r (dC_0drho MP r).
Proof.
  intros OK HG HC. split; [exact (dGamma_ok MP r OK)|]. split; [exact (dp_ref_ok MP r OK)|]. split; [exact (de_ref_ok MP r OK)|].
  split; [exact (dE1_rho_ok MP r OK HG p)|]. split; [exact (dE1_p_ok MP r OK HG p)|]. split; [exact (dT_p_ok MP r OK HG p HC)|].
  split; [|split; [exact (dcs2_ok MP r OK)|exact (dC0_ok MP r OK HG)]].
  intros T0. assert (D := dT_rho_ok MP r OK HG p HC). rewrite T0, Rmult_0_l, Rplus_0_r in D. exact D.
Qed.
Print Assumptions eos_derivatives_partial.
Example eos_derivatives_hyps k : eos_ok (demo k 0) 2 /\ Gamma_MG (demo k 0) 2 <> 0 /\ cv (demo k 0) <> 0 /\ Tref (demo k 0) = 0.
Proof. destruct (demo_ok k 0) as [A B]. split; [exact A|]. split; [exact B|]. cbn. split; [lra|reflexivity]. Qed.

(** mg.cpp 281-294 drops the derivative of the reference isentrope, so with any other reference temperature the
    function named after the derivative is not the derivative, for any equation of state. *)
Theorem temperature_derivative_refuted MP r p : eos_ok MP r -> Gamma_MG MP r <> 0 -> cv MP <> 0 -> Tref MP <> 0 ->
  ~ is_derive (fun t : R => temperature_mg MP t p) r (dTdrho MP r p).
Proof.
  intros OK HG HC HT D. assert (D' := dT_rho_ok MP r OK HG p HC).
  apply is_derive_unique in D. apply is_derive_unique in D'. assert (E := eq_trans (eq_sym D) D').
  assert (Hr : 0 < r) by apply OK.
  assert (Hp : 0 < phi MP r) by (unfold phi; destruct (kind MP); apply exp_pos).
  assert (X : Tref MP * (Gamma_MG MP r / r * phi MP r) = 0) by (clear - E; lra).
  apply Rmult_integral in X. destruct X as [X|X]; [exact (HT X)|]. apply Rmult_integral in X. destruct X as [X|X]; [|lra].
  apply HG. unfold Rdiv in X. apply Rmult_integral in X. destruct X as [X|X]; [exact X|]. assert (0 < / r) by (apply Rinv_0_lt_compat, Hr). lra.
Qed.
Print Assumptions temperature_derivative_refuted.
Example temperature_derivative_hyps k : eos_ok (demo k 300) 2 /\ Gamma_MG (demo k 300) 2 <> 0 /\ cv (demo k 300) <> 0 /\ Tref (demo k 300) <> 0.
Proof. destruct (demo_ok k 300) as [A B]. split; [exact A|]. split; [exact B|]. cbn. split; lra. Qed.

(** ** C48 *)
Theorem pressure_energy_inverse MP r x : r <> 0 -> Gamma_MG MP r <> 0 ->
  pressure_mg MP r (E_1 MP r x) = x /\ E_1 MP r (pressure_mg MP r x) = x.
Proof. intros Hr HG. split; [exact (p_of_e MP r x Hr HG)|exact (e_of_p MP r x Hr HG)]. Qed.
Print Assumptions pressure_energy_inverse.
Example pressure_energy_hyps k : (2 : R) <> 0 /\ Gamma_MG (demo k 300) 2 <> 0.
Proof. split; [lra|apply demo_ok]. Qed.

(** ** C49 *)
(** Every component of every state. *)
Theorem conversions_round_trip_partial o P sm (Q : vec) k : VISCOUS o = true -> PMULTI P = false ->
  ((-1 < REACTION P)%Z <-> MULTI o = true) -> Q 0%nat <> 0 -> Gamma_MG (prm P) (Q 0%nat) <> 0 ->
  Cvec o P (Pvec o P sm Q) k = Q k /\ Pvec o P sm (Cvec o P Q) k = Q k /\
  Pvec_to_Cvec o P (Cvec_to_Pvec o P sm Q) k = Q k /\ Cvec_to_Pvec o P sm (Pvec_to_Cvec o P Q) k = Q k.
Proof.
  intros VI HM HR HQ HG. split; [exact (CP o P sm VI HM HR Q k HQ HG)|]. split; [exact (PC o P sm VI HM HR Q k HQ HG)|].
  split; [exact (tc_tp o P sm VI HM (proj1 HR) Q k HQ HG)|exact (tp_tc o P sm VI HM (proj1 HR) Q k HQ HG)].
Qed.
Print Assumptions conversions_round_trip_partial.
(** The pair used by the Riemann solver needs less: a concentration without a reaction is harmless. *)
Theorem permuted_conversions_round_trip o P sm (Q : vec) k : plain o P -> Q 0%nat <> 0 -> Gamma_MG (prm P) (Q 0%nat) <> 0 ->
  Pvec_to_Cvec o P (Cvec_to_Pvec o P sm Q) k = Q k /\ Cvec_to_Pvec o P sm (Pvec_to_Cvec o P Q) k = Q k.
Proof. intros (VI & HM & HR) HQ HG. split; [exact (tc_tp o P sm VI HM HR Q k HQ HG)|exact (tp_tc o P sm VI HM HR Q k HQ HG)]. Qed.
Print Assumptions permuted_conversions_round_trip.
Example conversions_hyps k : VISCOUS shipped = true /\ PMULTI (demo_par k 300) = false /\
  ((-1 < REACTION (demo_par k 300))%Z <-> MULTI shipped = true) /\ Gamma_MG (prm (demo_par k 300)) 2 <> 0 /\ plain shipped (demo_par k 300).
Proof. repeat split; cbn; try reflexivity; try discriminate; try lia; apply demo_ok. Qed.
(** Cvec counts the heat of reaction whenever the program is compiled with a concentration, internal_energy only if the
    material reacts. A state of an inert material that carries a concentration does not survive the round trip. *)
Theorem conversions_round_trip_refuted : exists o P Q, VISCOUS o = true /\ PMULTI P = false /\ MULTI o = true /\ REACTION P = (-1)%Z /\
  0 < Q 0%nat /\ eos_ok (prm P) (Q 0%nat) /\ Gamma_MG (prm P) (Q 0%nat) <> 0 /\ forall sm, Pvec o P sm (Cvec o P Q) 1%nat <> Q 1%nat.
Proof.
  exists (mkopt true false true 0 true false 2).
  exists (mkpar (demo STIFFENED_GAS 0) false false false false (fun _ => 0) (demo STIFFENED_GAS 0) (-1) 1).
  exists (fun k => match k with O => 1 | 1%nat => 1 | _ => 0 end).
  repeat split; cbn; try reflexivity; try lra. intros sm.
  unfold Pvec, Cvec, pressure, internal_energy, total_energy, E_1, E_2A, E_3, E_R, pressure_mg, C_0, devGsq, dot3, sum3, get_A, get_rhov, set1, setseg, mV.
  cbn. set (c := c_s2 _ _). clearbody c. unfold Gamma_MG, e_ref, p_ref. cbn. lra.
Qed.
Print Assumptions conversions_round_trip_refuted.

(** ** C50 *)
Theorem devGsq_is_shear_measure A :
  devGsq A = frob3 (dev3 (gram A)) (dev3 (gram A)) /\
  0 <= devGsq A /\
  (devGsq A = 0 <-> exists c, meq (gram A) (mscal c id3)) /\
  (forall R S, orthogonal R -> orthogonal S -> devGsq (mmul (mmul R A) S) = devGsq A) /\
  meq (AdevG A) (mmul A (dev3 (gram A))).
Proof.
  split; [apply devGsq_frob|]. split; [rewrite devGsq_frob; apply frob_nonneg|]. split; [apply devGsq_zero|]. split; [|apply AdevG_prod].
  intros R S HR HS. rewrite (devGsq_right S (mmul R A) (proj2 HS)). apply devGsq_left, (proj1 HR).
Qed.
Print Assumptions devGsq_is_shear_measure.
(** the gradient: along every differentiable curve of matrices the derivative is the inner product with 4 AdevG *)
Theorem devGsq_gradient (F : nat -> nat -> R -> R) (q : mat3) t0 :
  (forall i j, (i < 3)%nat -> (j < 3)%nat -> is_derive (fun t : R => F i j t) t0 (q i j)) ->
  is_derive (fun t : R => devGsq (fun i j => F i j t)) t0 (frob3 (mscal 4 (AdevG (fun i j => F i j t0))) q).
Proof.
  intros H. set (G := fun k t => if (Nat.leb 5 k && Nat.ltb k 14)%bool then F ((k - 5) / 3)%nat ((k - 5) mod 3)%nat t else 0).
  set (g := fun k => if (Nat.leb 5 k && Nat.ltb k 14)%bool then q ((k - 5) / 3)%nat ((k - 5) mod 3)%nat else 0).
  assert (D : forall k, is_derive (fun t : R => G k t) t0 (g k)).
  { intros k. unfold G, g. destruct (Nat.leb 5 k) eqn:A; [|apply (is_derive_const 0)]. destruct (Nat.ltb k 14) eqn:B; [|apply (is_derive_const 0)].
    cbn [andb]. apply Nat.leb_le in A. apply Nat.ltb_lt in B. apply H.
    - apply Nat.div_lt_upper_bound; lia.
    - apply Nat.mod_upper_bound; lia. }
  assert (X := devGsq_curve G g t0 D).
  assert (E : forall t, devGsq (get_A (at_time G t)) = devGsq (fun i j => F i j t)).
  { intros t. apply devGsq_meq. intros i j Hi Hj. unfold get_A, at_time, G. idx3 i; idx3 j; reflexivity. }
  eapply (is_derive_ext _ (fun t : R => devGsq (fun i j => F i j t))) in X; [|exact E].
  replace (frob3 (mscal 4 (AdevG (fun i j => F i j t0))) q) with (4 * frob3 (AdevG (get_A (at_time G t0))) (get_A g)); [exact X|].
  unfold frob3, mscal, sum3, AdevG, mmul, mtr, get_A, at_time, G, g, sum3. cbn. ring.
Qed.
Print Assumptions devGsq_gradient.

(** ** C51 *)
Theorem stress_symmetric P Q i d : (i < 3)%nat -> (d < 3)%nat ->
  sigma P Q i d = sigma P Q d i /\ sigma_col P Q d i = sigma P Q i d.
Proof.
  intros Hi Hd. split; [|rewrite sigma_shape, sigma_col_shape; reflexivity].
  rewrite !sigma_shape. rewrite shape_sym by assumption. reflexivity.
Qed.
Print Assumptions stress_symmetric.
(** the stress along any curve of states moves as the two derivative functions say *)
Theorem stress_derivatives (F : nat -> R -> R) q t0 P i d : has_velocity F t0 q -> eos_ok (prm P) (F 0%nat t0) -> b02 (prm P) <> 0 ->
  (i < 3)%nat -> (d < 3)%nat ->
  let Q := at_time F t0 in let r := Q 0%nat in let A := get_A Q in
  is_derive (fun t : R => sigma_col P (at_time F t) d i) t0
    (dsigmadrho P Q d i * q 0%nat +
     sum3 (fun m => sum3 (fun n => dsigmadA r (c_s2 (prm P) r) A (gram A) (AdevG A) d i m n * get_A q m n))).
Proof. intros HQ OK HB Hi Hd. exact (sigma_curve F q t0 HQ P i d OK HB Hi Hd). Qed.
Print Assumptions stress_derivatives.
(** the matrix version used for the wave speeds holds the entries d sigma_{d,i} / d A_{m,d} of that derivative *)
Theorem stress_derivative_column P Q d i m : (i < 3)%nat -> (d < 3)%nat -> (m < 3)%nat ->
  let r := Q 0%nat in let A := get_A Q in
  dsigmadA_dir P Q d i m = dsigmadA r (c_s2 (prm P) r) A (gram A) (AdevG A) d i m d.
Proof.
  intros Hi Hd Hm. cbv zeta. unfold dsigmadA_dir, dsigmadA. fold (gram (get_A Q)). rewrite (Nat.eqb_refl d).
  assert (SY : gram (get_A Q) i d = gram (get_A Q) d i) by (unfold gram, mmul, mtr, sum3; ring). rewrite SY.
  destruct (Nat.eqb i d) eqn:E; [apply Nat.eqb_eq in E; subst i|]; field.
Qed.
Print Assumptions stress_derivative_column.
Example stress_hyps k : eos_ok (prm (demo_par k 300)) ((fun (k : nat) (t : R) => match k with O => 2 + t | _ => INR k * t end) 0%nat 0) /\ b02 (prm (demo_par k 300)) <> 0.
Proof. split; [|cbn; lra]. cbv beta iota. replace (2 + 0) with 2 by ring. exact (proj1 (demo_ok k 300)). Qed.

(** ** C52 *)
(** Along every differentiable curve of states: the primitive variables move by dPdQ, the flux by the product
    dFdP dPdQ, and the matrix assembled by system_matrix is the quasi-linear one: flux derivative plus the
    non-conservative product. With heat conduction the reference temperature must vanish (C47). *)
Theorem jacobians_partial o P sm sr ea src (F : nat -> R -> R) q t0 d : plain o P -> has_velocity F t0 q ->
  eos_ok (prm P) (F 0%nat t0) -> Gamma_MG (prm P) (F 0%nat t0) <> 0 -> b02 (prm P) <> 0 ->
  (THERMAL o = true -> Tref (prm P) = 0 /\ cv (prm P) <> 0) -> (d < 3)%nat ->
  let Q := at_time F t0 in let ph := gpr o P sm sr ea src in
  (forall i, (i < V o)%nat -> is_derive (fun t : R => Pvec o P sm (at_time F t) i) t0 (rsum (V o) (fun j => dPdQ o P sm Q i j * q j))) /\
  (forall i, (i < V o)%nat -> is_derive (fun t : R => EqModel.flux o ph (fun _ => 0) (at_time F t) d i) t0
     (rsum (V o) (fun j => EqModel.jacobian ph Q d i j * q j))) /\
  (exists B, EqModel.Bdot o Q q d = Ok B /\ forall i, (i < V o)%nat ->
     is_derive (fun t : R => EqModel.flux o ph (fun _ => 0) (at_time F t) d i) t0
       (rsum (V o) (fun j => EqModel.system_matrix o ph Q d i j * q j) - B i)).
Proof.
  intros (VI & HM & HR) HQ OK HG HB HT Hd Q ph.
  assert (DP : forall i, (i < V o)%nat -> is_derive (fun t : R => Pvec o P sm (at_time F t) i) t0 (rsum (V o) (fun j => dPdQ o P sm Q i j * q j)))
    by (intros i Hi; exact (dPdQ_curve o P sm VI HM HR F q t0 HQ OK HG i Hi)).
  assert (DF : forall i, (i < V o)%nat -> is_derive (fun t : R => EqModel.flux o ph (fun _ => 0) (at_time F t) d i) t0
     (rsum (V o) (fun j => EqModel.jacobian ph Q d i j * q j))).
  { intros i Hi. assert (D := flux_curve o P sm VI HM HR F q t0 HQ OK HG _ DP HT HB ea src sr d i Hd Hi). fold ph Q in D.
    replace (rsum (V o) (fun j => EqModel.jacobian ph Q d i j * q j)) with (rsum (V o) (fun k => dFdP o P sm Q d i k * rsum (V o) (fun j => dPdQ o P sm Q k j * q j))); [exact D|].
    transitivity (rsum (V o) (fun k => rsum (V o) (fun j => dFdP o P sm Q d i k * (dPdQ o P sm Q k j * q j)))).
    - apply rsum_ext. intros k _. symmetry. apply rsum_scal.
    - rewrite rsum_swap. apply rsum_ext. intros j _. unfold ph, gpr, EqModel.jacobian, jacobian_product. rewrite <- rsum_scal_r.
      apply rsum_ext. intros k _. ring. }
  split; [exact DP|]. split; [exact DF|].
  destruct (FvProps.bdot_is_block_partial o Q q d VI Hd) as (B & EB & HBl). exists B. split; [exact EB|]. intros i Hi.
  replace (rsum (V o) (fun j => EqModel.system_matrix o ph Q d i j * q j) - B i) with (rsum (V o) (fun j => EqModel.jacobian ph Q d i j * q j)); [exact (DF i Hi)|].
  rewrite (proj1 (HBl i Hi)). rewrite <- rsum_minus. apply rsum_ext. intros j _. unfold EqModel.system_matrix. ring.
Qed.
Print Assumptions jacobians_partial.
Example jacobians_hyps k : plain shipped (demo_par k 300) /\ Gamma_MG (prm (demo_par k 300)) 2 <> 0 /\
  has_velocity (fun (k : nat) (t : R) => match k with O => 2 + t | _ => INR k * t end) 0 (fun k => match k with O => 1 | _ => INR k end).
Proof.
  split; [repeat split; cbn; try reflexivity; lia|]. split; [apply demo_ok|].
  intros [|j].
  - assert (D : is_derive (fun t : R => 2 + t) 0 1) by (auto_derive; [exact I|ring]). exact D.
  - assert (D : is_derive (fun t : R => INR (S j) * t) 0 (INR (S j))) by (generalize (INR (S j)); intro c; auto_derive; [exact I|ring]). exact D.
Qed.

(** ** C54 *)
(** [S_] is the source of state [Q]; the rates of change are those along any curve through [Q] moving with it. *)
Theorem source_dissipates o P K sm (Q S_ : vec) : VISCOUS o = true -> full_source o P K sm Q = Ok (Some S_) ->
  relax_ok P -> 0 < det3 (get_A Q) ->
  S_ 0%nat = 0 /\ S_ 1%nat = 0 /\ (forall i, (i < 3)%nat -> S_ (2 + i)%nat = body P i) /\
  forall F t0, has_velocity F t0 S_ -> (forall k, at_time F t0 k = Q k) ->
    is_derive (fun t : R => det3 (get_A (at_time F t))) t0 0 /\
    exists l, l <= 0 /\ is_derive (fun t : R => devGsq (get_A (at_time F t))) t0 l.
Proof.
  intros VI HS OK HD. split; [exact (src_0 o P K sm VI Q S_ HS)|]. split; [exact (src_1 o P K sm VI Q S_ HS)|].
  split; [exact (src_v o P K sm VI Q S_ HS)|]. intros F t0 HF HQ.
  split; [exact (det_stationary o P K sm VI Q S_ HS F t0 HF HQ)|exact (shear_decreases o P K sm VI Q S_ HS F t0 HF HQ OK HD)].
Qed.
Print Assumptions source_dissipates.
(** The energy lost by shear and heat flux heats the material. *)
Theorem source_heats o P K sm (Q S_ : vec) F t0 : VISCOUS o = true -> full_source o P K sm Q = Ok (Some S_) ->
  relax_ok P -> 0 < det3 (get_A Q) -> has_velocity F t0 S_ -> (forall k, at_time F t0 k = Q k) ->
  (forall i, body P i = 0) -> (REACTION P <= -1)%Z -> eos_ok (prm P) (Q 0%nat) -> Gamma_MG (prm P) (Q 0%nat) <> 0 ->
  0 <= C_0 (prm P) (Q 0%nat) -> (THERMAL o = true -> 0 <= temperature o P sm Q / (kappa (prm P) * Q 0%nat)) ->
  exists l, 0 <= l /\ is_derive (fun t : R => internal_energy o P (at_time F t)) t0 l.
Proof.
  intros VI HS OK HD HF HQ HB HR EO HG HC HT.
  assert (RE : Z.ltb (-1) (REACTION P) = false) by (apply Z.ltb_ge; exact HR).
  exact (heats o P K sm VI Q S_ HS F t0 HF HQ OK HD HB RE EO HG HC HT).
Qed.
Print Assumptions source_heats.
(** a sheared state of a viscous fluid: the source is finite and not zero *)
Definition sheared : vec := fun k => match k with O => 2 | 1%nat => 3 | 5%nat | 9%nat | 13%nat => 1 | 6%nat => 1 | _ => 0 end.
Definition demo_rates : rates := mkrates 0 0 0 0 1 0 0 0 0 0 0 0 0 0 0 0 0 0 0 0.
Example source_hyps k : relax_ok (demo_par k 300) /\ det3 (get_A sheared) = 1 /\
  forall sm, exists S_, full_source shipped (demo_par k 300) demo_rates sm sheared = Ok (Some S_) /\ S_ 6%nat < 0.
Proof.
  split; [repeat split; cbn; try lra; discriminate|]. split; [unfold det3, get_A, sheared; cbn; ring|]. intros sm.
  unfold full_source. cbn [REACTION demo_par]. replace (Z.ltb (-1) (-1)) with false by reflexivity. cbn [bind VISCOUS shipped].
  assert (TH : exists th, theta1inv (demo_par k 300) sheared = Some th /\ 0 < th).
  { unfold theta1inv. cbn [SOLID POWER_LAW BINGHAM demo_par]. 
    replace (det3 (get_A sheared)) with 1 by (unfold det3, get_A, sheared; cbn; ring).
    unfold cpow. cbn [mu nn prm demo_par demo]. destruct (Rlt_dec 0 1) as [_|N]; [|lra]. cbn [omap2]. eexists. split; [reflexivity|].
    unfold Rpower. rewrite ln_1, !Rmult_0_r, exp_0. cbn. lra. }
  destruct TH as (th & -> & HT). eexists. split; [reflexivity|].
  unfold PhysModel.source, setseg, set1. cbn [VISCOUS THERMAL shipped REACTION demo_par]. replace (Z.ltb (-1) (-1)) with false by reflexivity. cbn.
  unfold dEdA_s, mscal, AdevG, mmul, mtr, sum3, get_A, sheared. cbn.
  assert (C : 0 < c_s2 (prm (demo_par k 300)) 2) by (unfold c_s2; cbn; apply Rmult_lt_0_compat; [lra|apply exp_pos]). cbn in C.
  set (c := c_s2 _ _) in *. nra.
Qed.
