(** The materials of the code in another unit of length and time. *)
From Coq Require Import Reals ZArith Lia Lra FunctionalExtensionality.
From Verif Require Import Base Options Sum Mat3 PhysModel PhysInst EqModel UtilsModel RelaxModel Split3Props MirrorProof5 ScaleProof1 ScaleProof2.
Import List ListNotations.
Open Scope R_scope.

(** Stresses, energies, densities and velocities keep their values, times are lam times as large: so are the viscosity (of a
    power law fluid, its 1/n-th power), the relaxation time of a solid and the conductivity; body forces are lam times as small. *)
Definition viscosity (lam : R) (P : par) : R := if (POWER_LAW P && negb (SOLID P))%bool then Rpower lam (nn (prm P)) * mu (prm P) else lam * mu (prm P).
Definition similar_params (lam : R) (P : par) : params :=
  let p := prm P in
  mkparams (kind p) (rho0 p) (Tref p) (cv p) (pINF p) (Gam0 p) (c02 p) (ss p) (alpha p) (beta p) (gam p) (cA p) (cB p) (cR1 p) (cR2 p) (b02 p)
    (viscosity lam P) (lam * tau0 p) (sigY p) (nn p) (ca2 p) (lam * kappa p).
Definition similar (lam : R) (P : par) : par :=
  mkpar (similar_params lam P) (SOLID P) (POWER_LAW P) (PMULTI P) (BINGHAM P) (fun i => body P i / lam) (MP2 P) (REACTION P) (Qc P).
(** reactions are lam times as slow *)
Definition slower (lam : R) (K : rates) : rates :=
  mkrates (Kc K / lam) (Ti K) (rB K / lam) (Ea K) (Rc K) (rI K / lam) (rG1 K / lam) (rG2 K / lam)
    (ra K) (rb K) (rc K) (rd_ K) (re K) (rg K) (rx K) (ry K) (rz K) (phiI K) (phiG1 K) (phiG2 K).

(** a power law fluid has positive viscosity *)
Definition flows (P : par) : Prop := POWER_LAW P = true -> SOLID P = false -> 0 < mu (prm P) /\ nn (prm P) <> 0.

Section Code.
Variable lam : R.
Hypothesis L : 0 < lam.
Variable o : options.
Variable P : par.
Variable K : rates.
Variable sm : vec -> R * R * R.
Notation P' := (similar lam P).
Notation K' := (slower lam K).

Lemma odiv_scale a b c : b = lam * c -> odiv a b = option_map (fun x => x / lam) (odiv a c).
Proof using L.
  intros ->. unfold odiv. destruct (Req_EM_T (lam * c) 0) as [E|E], (Req_EM_T c 0) as [E'|E']; cbn [option_map]; try reflexivity.
  - exfalso. apply Rmult_integral in E. lra.
  - exfalso. apply E. rewrite E'. ring.
  - f_equal. unfold Rdiv. rewrite Rinv_mult. ring.
Qed.
Lemma odiv_quot a b : odiv (a / lam) (b / lam) = odiv a b.
Proof using L.
  assert (I : / lam <> 0) by (apply Rinv_neq_0_compat; lra).
  unfold odiv. destruct (Req_EM_T (b / lam) 0) as [E|E], (Req_EM_T b 0) as [E'|E']; cbn [option_map]; try reflexivity.
  - exfalso. unfold Rdiv in E. apply Rmult_integral in E. tauto.
  - exfalso. apply E. rewrite E'. unfold Rdiv. ring.
  - f_equal. field. split; [exact E'|lra].
Qed.
Lemma root_scale n m : 0 < m -> n <> 0 -> cpow (Rpower lam n * m) (1 / n) = option_map (Rmult lam) (cpow m (1 / n)).
Proof using L.
  intros Hm Hn. unfold cpow. assert (0 < Rpower lam n * m) by (apply Rmult_lt_0_compat; [apply exp_pos|exact Hm]).
  destruct (Rlt_dec 0 m); [|contradiction]. destruct (Rlt_dec 0 (Rpower lam n * m)); [|contradiction]. cbn [option_map]. f_equal.
  rewrite <- Rpower_mult_distr by (try apply exp_pos; exact Hm). rewrite Rpower_mult. replace (n * (1 / n)) with 1 by (field; exact Hn). rewrite Rpower_1 by exact L. reflexivity.
Qed.
Lemma obind_map {A B C} (f : A -> B) (a : option A) (g : B -> option C) : obind (option_map f a) g = obind a (fun x => g (f x)).
Proof using. destruct a; reflexivity. Qed.
Lemma obind_ext {A B} (a : option A) (f g : A -> option B) : (forall x, f x = g x) -> obind a f = obind a g.
Proof using. intros H. destruct a; cbn [obind]; auto. Qed.

(** *** relaxation/analytic.cpp *)
Lemma time_scale r d m0 u0 dt : flows P -> nondimensionalized_time P' r d m0 u0 (lam * dt) = nondimensionalized_time P r d m0 u0 dt.
Proof using L.
  intros HF. assert (Z : forall a b c, a / lam * b * c * (lam * dt) + 1 = a * b * c * dt + 1) by (intros; field; lra).
  unfold nondimensionalized_time. cbn [similar prm SOLID POWER_LAW similar_params nn rho0 b02 sigY tau0 mu]. change (c_s2 (similar_params lam P) r) with (c_s2 (prm P) r).
  destruct (POWER_LAW P) eqn:EP; [destruct (SOLID P) eqn:ES|]; cbv zeta.
  - destruct (Rle_dec _ 0); [reflexivity|]. apply obind_ext. intros l. rewrite (odiv_scale _ _ _ eq_refl), obind_map. apply obind_ext. intros x. apply obind_ext. intros w. apply obind_ext. intros y. apply obind_ext. intros k. rewrite Z. reflexivity.
  - apply obind_ext. intros k. destruct (Rle_dec _ 0); [reflexivity|]. apply obind_ext. intros l. unfold viscosity. rewrite EP, ES. cbn [andb negb]. destruct (HF EP ES) as [Hm Hn]. rewrite root_scale, obind_map by assumption. apply obind_ext. intros m.
    replace (6 * (lam * m)) with (lam * (6 * m)) by ring.
    assert (X : forall a b, odiv (lam * a) b = option_map (Rmult lam) (odiv a b)) by (intros a b; unfold odiv; destruct (Req_EM_T b 0); cbn [option_map]; [reflexivity|f_equal; unfold Rdiv; ring]).
    rewrite X, obind_map. apply obind_ext. intros t. rewrite (odiv_scale _ _ _ eq_refl), obind_map. apply obind_ext. intros x. apply obind_ext. intros y. apply obind_ext. intros h. rewrite Z. reflexivity.
  - unfold viscosity. rewrite EP. cbn [andb]. replace (3 * (lam * mu (prm P))) with (lam * (3 * mu (prm P))) by ring. rewrite (odiv_scale _ _ _ eq_refl), obind_map. apply obind_ext. intros x. f_equal. field. lra.
Qed.
Lemma relax_A_scale svd A dt : flows P -> relax_A P' svd A (lam * dt) = relax_A P svd A dt.
Proof using L.
  intros HF. unfold relax_A. destruct (svd A) as [[U s] Vm]. cbv zeta. destruct (Req_EM_T _ 0); [reflexivity|]. destruct (Rle_dec _ _); [|reflexivity]. rewrite time_scale by exact HF. reflexivity.
Qed.
Lemma thermal_scale q dt : relax_thermal P' q (lam * dt) = relax_thermal P q dt.
Proof using L.
  unfold relax_thermal. cbv zeta. cbn [similar prm similar_params kappa ca2 cv]. change (E_2A (similar lam P)) with (E_2A P). rewrite (odiv_scale _ _ (kappa (prm P) * q 0%nat * cv (prm P))) by ring. rewrite obind_map. apply obind_ext. intros k.
  set (c1 := _ - _ - _). set (c2 := ca2 (prm P) / 2). replace (c1 * (k / lam)) with (c1 * k / lam) by (unfold Rdiv; ring). replace (c2 * (k / lam)) with (c2 * k / lam) by (unfold Rdiv; ring). rewrite odiv_quot.
  replace (- (c1 * k / lam) * (lam * dt) / 2) with (- (c1 * k) * dt / 2) by (field; lra). reflexivity.
Qed.
Lemma body_scale q dt : body_forces P' q (lam * dt) = body_forces P q dt.
Proof using L. unfold body_forces. f_equal. apply functional_extensionality. intros k. cbn [similar body]. field. lra. Qed.
Lemma analytic_scale svd q dt : flows P -> ode_stepper_analytic o P' svd q (lam * dt) = ode_stepper_analytic o P svd q dt.
Proof using L.
  intros HF. unfold ode_stepper_analytic, relax_distortion. cbv zeta. rewrite body_scale, relax_A_scale by exact HF. apply obind_ext. intros q1. rewrite thermal_scale. reflexivity.
Qed.

(** *** sources *)
Lemma omap_scale c (w : option R) : option_map (fun w => c / lam * w) w = option_map (fun x => x / lam) (option_map (fun w => c * w) w).
Proof using. clear L. destruct w; cbn [option_map]; [|reflexivity]. f_equal. unfold Rdiv. ring. Qed.
Lemma oplus_scale a b : omap2 Rplus (option_map (fun x => x / lam) a) (option_map (fun x => x / lam) b) = option_map (fun x => x / lam) (omap2 Rplus a b).
Proof using. clear L. destruct a, b; cbn [option_map omap2]; try reflexivity. f_equal. unfold Rdiv. ring. Qed.
Lemma ozero_scale : Some 0 = option_map (fun x => x / lam) (Some 0).
Proof using. clear L. cbn [option_map]. f_equal. unfold Rdiv. ring. Qed.
Lemma cmax_scale x : cmax (x / lam) 0 = cmax x 0 / lam.
Proof using L.
  unfold cmax. pose proof (Rinv_0_lt_compat lam L) as I. destruct (Rlt_dec x 0), (Rlt_dec (x / lam) 0) as [H|H]; try reflexivity.
  - unfold Rdiv. ring.
  - exfalso. apply H. unfold Rdiv. nra.
  - unfold Rdiv in H. exfalso. nra.
Qed.
Lemma reaction_scale q : reaction_rate o P' K' sm q = res_map (option_map (fun x => x / lam)) (reaction_rate o P K sm q).
Proof using L.
  unfold reaction_rate. cbn [similar REACTION]. change (PhysModel.temperature o P' sm) with (PhysModel.temperature o P sm). change (PhysModel.pressure o P' sm) with (PhysModel.pressure o P sm).
  change (rho0 (prm P')) with (rho0 (prm P)). cbn [slower Kc Ti rB Ea Rc rI rG1 rG2 ra rb rc rd_ re rg rx ry rz phiI phiG1 phiG2].
  destruct (REACTION P) as [|[[p|p|]|[p|p|]|]|]; unfold res_map; cbn [bind]; try reflexivity.
  - cbn [option_map]. do 2 f_equal. destruct (Rlt_dec _ _); unfold Rdiv; ring.
  - cbv zeta. rewrite !omap_scale.
    set (l := cmin _ 1). set (A := option_map (fun w => rI K * w) _). set (B := option_map (fun w => rG1 K * w) _). set (C := option_map (fun w => rG2 K * w) _).
    f_equal. assert (OZ : forall x, omap2 Rplus (Some 0) (option_map (fun x => x / lam) x) = option_map (fun x => x / lam) (omap2 Rplus (Some 0) x)).
    { intros [x|]; cbn [option_map omap2]; [f_equal; unfold Rdiv; ring|reflexivity]. }
    assert (CM : forall x, option_map (fun w => cmax w 0) (option_map (fun x => x / lam) x) = option_map (fun x => x / lam) (option_map (fun w => cmax w 0) x)).
    { intros [x|]; cbn [option_map]; [f_equal; apply cmax_scale|reflexivity]. }
    destruct (Rlt_dec (1 - l) (phiI K)), (Rlt_dec (1 - l) (phiG1 K)), (Rlt_dec (phiG2 K) (1 - l)); rewrite ?OZ, ?oplus_scale; try apply CM.
    cbn [option_map]. f_equal. rewrite <- cmax_scale. f_equal. unfold Rdiv. ring.
  - cbn [option_map]. do 2 f_equal. unfold Rdiv. ring.
Qed.

(** *** solvers/split/rk.cpp with a rate lam times as slow, over a time lam times as long *)
Section Rk.
Variables f f' : option R -> res (option R).
Hypothesis Hf : forall y, f' y = res_map (option_map (fun x => x / lam)) (f y).
Lemma oscale_scale dt k : oscale (lam * dt) (option_map (fun x => x / lam) k) = oscale dt k.
Proof using L. destruct k; cbn [option_map oscale]; [|reflexivity]. unfold oscale. cbn [option_map]. f_equal. field. lra. Qed.
Lemma rk4_scale y dt : rk4 f' y (lam * dt) = rk4 f y dt.
Proof using L Hf.
  unfold rk4. rewrite Hf. destruct (f y) as [k1| | |]; cbn [bind res_map]; try reflexivity. rewrite oscale_scale, Hf. destruct (f _) as [k2| | |]; cbn [bind res_map]; try reflexivity.
  rewrite oscale_scale, Hf. destruct (f _) as [k3| | |]; cbn [bind res_map]; try reflexivity. rewrite oscale_scale, Hf. destruct (f _) as [k4| | |]; cbn [bind res_map]; try reflexivity. rewrite oscale_scale. reflexivity.
Qed.
Lemma rk_steps_scale n : forall y dt, rk_steps f' n y (lam * dt) = rk_steps f n y dt.
Proof using L Hf. induction n as [|n IH]; intros y dt; cbn [rk_steps]; [reflexivity|]. rewrite rk4_scale. apply bind_ext. intros d. apply IH. Qed.
Lemma rk_scale tf y n : runge_kutta f' (lam * tf) y n = runge_kutta f tf y n.
Proof using L Hf. unfold runge_kutta. replace (lam * tf / IZR n) with (lam * (tf / IZR n)) by (unfold Rdiv; ring). apply rk_steps_scale. Qed.
Lemma launch_scale fuel : forall tf y y0 n, launch f' fuel (lam * tf) y y0 n = launch f fuel tf y y0 n.
Proof using L Hf.
  induction fuel as [|fuel IH]; intros tf y y0 n; cbn [launch]; destruct (isnan y0); try reflexivity. rewrite rk_scale. apply bind_ext. intros d. destruct (Z.ltb _ _); [reflexivity|apply IH].
Qed.
End Rk.
(** the value at a NaN, lam times as small *)
Lemma numerical_scale z fuel q dt : ode_stepper_numerical o P' K' sm (res_map (option_map (fun x => x / lam)) z) fuel q (lam * dt) = ode_stepper_numerical o P K sm z fuel q dt.
Proof using L.
  unfold ode_stepper_numerical. cbn [similar REACTION]. destruct (Z.ltb _ _); [|reflexivity]. cbv zeta. destruct (Rlt_dec _ _); [|reflexivity]. unfold runge_kutta_launcher.
  assert (HF : forall y, func o P' K' sm (res_map (option_map (fun x => x / lam)) z) q y = res_map (option_map (fun x => x / lam)) (func o P K sm z q y)).
  { intros [y|]; cbn [func]; [|reflexivity]. rewrite reaction_scale. destruct (reaction_rate _ _ _ _ _) as [rr| | |]; cbn [bind res_map]; try reflexivity. destruct rr; cbn [option_map]; [|reflexivity]. do 2 f_equal. unfold Rdiv. ring. }
  rewrite (rk_scale _ _ HF). destruct (runge_kutta _ _ _ _) as [y0| | |]; cbn [bind]; try reflexivity. rewrite (launch_scale _ _ HF). reflexivity.
Qed.
(** the relaxation of the code *)
Lemma relaxation_scale z svd h c : flows P -> code_relaxation o P' K' sm (option_map (fun x => x / lam) z) svd (lam * h) c = code_relaxation o P K sm z svd h c.
Proof using L.
  intros HF. unfold code_relaxation. destruct c as [q|]; [|reflexivity]. unfold ode_cell. rewrite analytic_scale by exact HF. destruct (ode_stepper_analytic o P svd q h) as [q1|]; [|reflexivity].
  change (Ok (option_map (fun x => x / lam) z)) with (res_map (option_map (fun x => x / lam)) (Ok z)). rewrite numerical_scale. reflexivity.
Qed.

(** *** variables/sources.cpp: a Newtonian fluid has n = 1, and is no power law fluid if it is a Bingham fluid *)
Definition plain : Prop := SOLID P = false -> (POWER_LAW P = false -> BINGHAM P = false -> nn (prm P) = 1 /\ 0 < mu (prm P)) /\ (POWER_LAW P = true -> BINGHAM P = false).
Lemma theta1_scale q : flows P -> plain -> theta1inv P' q = option_map (fun x => x / lam) (theta1inv P q).
Proof using L.
  intros HF HP. unfold theta1inv. cbv zeta. cbn [similar SOLID POWER_LAW BINGHAM prm similar_params nn rho0 sigY tau0 mu]. change (c_s2 (similar_params lam P)) with (c_s2 (prm P)). change (PhysModel.sigma P') with (PhysModel.sigma P).
  set (A53 := cpow (det3 (get_A q)) (5 / 3)). unfold plain in HP. unfold flows in HF. unfold viscosity. destruct (SOLID P); [destruct (POWER_LAW P)|].
  - destruct A53 as [a|], (cpow _ _) as [w|]; cbn [omap2 option_map]; try reflexivity. f_equal. replace (c_s2 (prm P) (q 0%nat) * (lam * tau0 (prm P))) with (lam * (c_s2 (prm P) (q 0%nat) * tau0 (prm P))) by ring. unfold Rdiv. rewrite (Rinv_mult lam). ring.
  - apply ozero_scale.
  - destruct (HP eq_refl) as [H1 H2]. destruct (BINGHAM P) eqn:EB.
    + destruct (POWER_LAW P); [discriminate (H2 eq_refl)|]. cbn [andb]. destruct (Rlt_dec _ _); [|apply ozero_scale]. destruct A53 as [a|]; cbn [option_map]; [|reflexivity]. f_equal. unfold Rdiv. rewrite !Rinv_mult. ring.
    + assert (C : omap2 (fun A53 m => A53 * rho0 (prm P) / (2 * m)) A53 (cpow (if (POWER_LAW P && negb false)%bool then Rpower lam (nn (prm P)) * mu (prm P) else lam * mu (prm P)) (1 / nn (prm P))) =
        option_map (fun x => x / lam) (omap2 (fun A53 m => A53 * rho0 (prm P) / (2 * m)) A53 (cpow (mu (prm P)) (1 / nn (prm P))))).
      { assert (E : cpow (if (POWER_LAW P && negb false)%bool then Rpower lam (nn (prm P)) * mu (prm P) else lam * mu (prm P)) (1 / nn (prm P)) = option_map (Rmult lam) (cpow (mu (prm P)) (1 / nn (prm P)))).
        { destruct (POWER_LAW P); cbn [andb negb].
          - destruct (HF eq_refl eq_refl). apply root_scale; assumption.
          - destruct (H1 eq_refl eq_refl) as [Hn Hm]. rewrite Hn. pose proof (root_scale 1 (mu (prm P)) Hm ltac:(lra)) as R1. rewrite Rpower_1 in R1 by exact L. exact R1. }
        rewrite E. destruct A53 as [a|], (cpow (mu (prm P)) (1 / nn (prm P))) as [m|]; cbn [omap2 option_map]; try reflexivity. f_equal. unfold Rdiv. rewrite !Rinv_mult. ring. }
      rewrite C. destruct (POWER_LAW P); [|reflexivity]. generalize (omap2 (fun A53 m => A53 * rho0 (prm P) / (2 * m)) A53 (cpow (mu (prm P)) (1 / nn (prm P)))). intros [c|]; destruct (cpow (frobnorm _ / _) _) as [w|]; cbn [omap2 option_map]; try reflexivity. f_equal. unfold Rdiv. ring.
Qed.
Lemma source_scale q k : flows P -> plain -> source_or_zero o P' K' sm q k = source_or_zero o P K sm q k / lam.
Proof using L.
  intros HF HP. assert (Z : 0 = 0 / lam) by (unfold Rdiv; ring). unfold source_or_zero, full_source. change (REACTION P') with (REACTION P). rewrite reaction_scale.
  assert (E : (if Z.ltb (-1) (REACTION P) then res_map (option_map (fun x => x / lam)) (reaction_rate o P K sm q) else Ok (Some 0)) = res_map (option_map (fun x => x / lam)) (if Z.ltb (-1) (REACTION P) then reaction_rate o P K sm q else Ok (Some 0))).
  { destruct (Z.ltb _ _); [reflexivity|]. cbn [res_map bind]. f_equal. apply ozero_scale. }
  rewrite E. clear E. destruct (if Z.ltb (-1) (REACTION P) then reaction_rate o P K sm q else Ok (Some 0)) as [r| | |]; cbn [bind res_map]; try exact Z.
  assert (T : (if VISCOUS o then theta1inv P' q else Some 0) = option_map (fun x => x / lam) (if VISCOUS o then theta1inv P q else Some 0)).
  { destruct (VISCOUS o); [apply theta1_scale; assumption|apply ozero_scale]. }
  rewrite T. clear T. destruct (if VISCOUS o then theta1inv P q else Some 0) as [th|]; cbn [option_map]; [|exact Z]. destruct r as [r|]; cbn [option_map]; [|exact Z].
  unfold PhysModel.source. cbv zeta. change (REACTION P') with (REACTION P). cbn [similar body]. change (dEdA_s P') with (dEdA_s P). change (dEdJ P') with (dEdJ P).
  unfold theta2inv. change (PhysModel.temperature o P' sm) with (PhysModel.temperature o P sm). change (kappa (prm P')) with (lam * kappa (prm P)).
  unfold Rdiv. rewrite !Rinv_mult. unfold set1, setseg, upd.
  destruct (VISCOUS o), (THERMAL o), (Z.ltb _ _); repeat (match goal with |- context [if ?b then _ else _] => destruct b end); ring.
Qed.
Lemma phys_scale specrad eigabs : flows P -> plain ->
  gpr o P' sm specrad eigabs (source_or_zero o P' K' sm) = weaker lam (gpr o P sm specrad eigabs (source_or_zero o P K sm)).
Proof using L.
  intros HF HP. unfold gpr, weaker. cbn [EqModel.pressure EqModel.sigma temperature calpha2 EqModel.source EqModel.max_abs_eigs jacobian EqModel.eigabs].
  replace (source_or_zero o P' K' sm) with (fun q k => source_or_zero o P K sm q k / lam); [reflexivity|]. do 2 (apply functional_extensionality; intros ?). symmetry. apply source_scale; assumption.
Qed.
End Code.
