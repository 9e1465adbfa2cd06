(** C60, C61 and C71: the thermal, reactive and body-force steps and the Runge-Kutta integrator. *)
From Coq Require Import Reals ZArith Lra Psatz Lia List.
From Coquelicot Require Import Coquelicot.
From Verif Require Import Base Options Mat3 PhysModel PhysInst PhysSpec PhysProof2 UtilsModel UtilsProof RelaxModel RelaxSpec RelaxProof RelaxProof6 RelaxProof7.
Import ListNotations.
Open Scope R_scope.

(** ** C71 *)
(** heat conduction is switched on *)
Definition conducting (P : par) : Prop := 0 < kappa (prm P) /\ 0 < cv (prm P) /\ 0 < ca2 (prm P).
(** an ideal gas law for the internal energy: e = cv T *)
Definition ideal (P : par) : Prop :=
  kind (prm P) = STIFFENED_GAS /\ pINF (prm P) = 0 /\ Tref (prm P) = 0 /\ gam (prm P) <> 1 /\ PMULTI P = false /\ REACTION P = (-1)%Z.

Lemma thermal_below P q t q' k : relax_thermal P q t = Some q' -> ~ (14 <= k < 17)%nat -> q' k = q k.
Proof.
  unfold relax_thermal. intros H Hk. destruct (odiv (2 * _) _); [|discriminate]. cbn [obind] in H. destruct (odiv _ _) as [h|] in H; [|discriminate]. cbn [obind] in H.
  destruct (osqrt _) as [w|] in H; [|discriminate]. cbn [obind] in H. destruct (odiv _ _) in H; [|discriminate]. injection H as <-. apply setseg_out. lia.
Qed.
Lemma therm_same P q q' : (forall k, (k < 14)%nat -> q' k = q k) -> therm P q' = therm P q.
Proof.
  intros H. unfold therm, E_3, dot3, sum3, get_rhov. rewrite !(H _) by lia. f_equal. f_equal. unfold E_2A, devGsq, dot3, sum3, get_A. rewrite !(H _) by lia. reflexivity.
Qed.
Lemma ideal_temperature o P sm q : VISCOUS o = true -> THERMAL o = true -> ideal P -> conducting P -> 0 < q 0%nat ->
  temperature o P sm q = (therm P q - ca2 (prm P) / 2 * w2 q) / cv (prm P).
Proof.
  intros HV HT [K [PI [T0 [G [PM RE]]]]] [_ [C _]] R0. unfold temperature, temperature_mg, pressure. rewrite PM. unfold pressure_mg, p_ref, e_ref, Gamma_MG. rewrite K, PI, T0.
  unfold internal_energy. rewrite HV, HT, RE. cbn [Z.ltb Z.compare]. change (-1 <? -1)%Z with false. unfold therm, w2, E_2J, E_3, dot3, sum3. cbv beta iota. field. repeat split; lra.
Qed.

(** For an ideal gas the thermal step is, for every time, the exact flow of the thermal source term: it starts at the
    given state, moves the impulse at the rate the source term gives at the current state, and touches nothing else. *)
Theorem thermal_relaxation_partial : forall o P sm th1 rr q, VISCOUS o = true -> THERMAL o = true -> ideal P -> conducting P ->
  0 < q 0%nat -> 0 < temperature o P sm q ->
  exists w : R -> vec, (forall t, relax_thermal P q t = Some (w t)) /\ (forall k, w 0 k = q k) /\
    (forall t k, ~ (14 <= k < 17)%nat -> w t k = q k) /\
    (forall t k, (14 <= k < 17)%nat -> is_derive (fun t => w t k) t (source o P th1 (theta2inv o P sm) rr (w t) k)) /\
    (forall t k, 0 <= t -> (14 <= k < 17)%nat -> Rabs (w t k) <= Rabs (q k)) /\
    (forall t, 0 <= t -> temperature o P sm q <= temperature o P sm (w t)).
Proof.
  intros o P sm th1 rr q HV HT HI HC R0 TP. pose proof HC as [HK [HCV HA]]. rewrite (ideal_temperature o P sm q) in * by assumption.
  assert (TP' : ca2 (prm P) / 2 * w2 q < therm P q). { destruct (Rlt_dec (ca2 (prm P) / 2 * w2 q) (therm P q)) as [L|N]; [exact L|]. exfalso. apply Rnot_lt_le in N.
    assert (0 <= / cv (prm P)) by (left; apply Rinv_0_lt_compat, HCV). unfold Rdiv in TP at 1. nra. }
  set (c1 := therm P q * kk P q). set (c2 := ca2 (prm P) / 2 * kk P q).
  assert (C1 := c1_pos P q R0 HC TP'). assert (C2 := c2_range P q R0 HC TP'). fold c1 in C1. fold c1 c2 in C2.
  set (w := fun t => setseg q 14 3 (fun k => q (14 + k)%nat * Fac c1 c2 (w2 q) t)).
  assert (WO : forall t k, ~ (14 <= k < 17)%nat -> w t k = q k) by (intros t k Hk; apply setseg_out; lia).
  assert (WI : forall t k, (14 <= k < 17)%nat -> w t k = q k * Fac c1 c2 (w2 q) t) by (intros t k Hk; unfold w; rewrite setseg_in by lia; do 2 f_equal; lia).
  assert (W2 : forall t, w2 (w t) = w2 q * (Fac c1 c2 (w2 q) t * Fac c1 c2 (w2 q) t)).
  { intros t. unfold w2 at 1, dot3, sum3, get_rhoJ. rewrite !WI, (WO t 0%nat) by lia. set (F := Fac c1 c2 (w2 q) t). unfold w2, dot3, sum3, get_rhoJ. field. lra. }
  assert (TW : forall t, temperature o P sm (w t) = (therm P q - ca2 (prm P) / 2 * (w2 q * (Fac c1 c2 (w2 q) t * Fac c1 c2 (w2 q) t))) / cv (prm P)).
  { intros t. rewrite ideal_temperature; try assumption. rewrite W2, (therm_same P q (w t)); [reflexivity|]. intros k Hk. apply WO. lia. }
  exists w. split; [intros t; apply (thermal_eq P q R0 HC TP')|]. split.
  { intros k. destruct (le_dec 14 k), (lt_dec k 17); try (apply WO; lia). rewrite WI by lia. rewrite Fac_zero. ring. }
  split; [exact WO|]. split; [|split].
  - intros t k Hk. apply is_derive_ext with (fun t => q k * Fac c1 c2 (w2 q) t); [intros u; symmetry; apply WI, Hk|].
    assert (D := is_derive_scal _ _ (q k) _ (Fac_derive c1 c2 (w2 q) C1 C2 t)).
    replace (source o P th1 (theta2inv o P sm) rr (w t) k) with (q k * (- / 2 * (c1 - c2 * w2 q * (Fac c1 c2 (w2 q) t * Fac c1 c2 (w2 q) t)) * Fac c1 c2 (w2 q) t)); [exact D|].
    destruct HI as [_ [_ [_ [_ [_ RE]]]]]. unfold source. rewrite RE, HT. change (-1 <? -1)%Z with false. cbv iota zeta. rewrite setseg_in by lia. unfold dEdJ, theta2inv, get_rhoJ. rewrite TW, (WO t 0%nat) by lia.
    replace (14 + (k - 14))%nat with k by lia. rewrite WI by exact Hk. unfold c1, c2, kk. field. repeat split; lra.
  - intros t k Ht Hk. rewrite WI by exact Hk. rewrite Rabs_mult. assert (F0 := Fac_pos c1 c2 (w2 q) C1 C2 t). assert (F1 := Fac_le c1 c2 (w2 q) C1 C2 t Ht).
    rewrite (Rabs_pos_eq (Fac _ _ _ _)) by lra. assert (A := Rabs_pos (q k)). nra.
  - intros t Ht. rewrite TW. assert (F0 := Fac_pos c1 c2 (w2 q) C1 C2 t). assert (F1 := Fac_le c1 c2 (w2 q) C1 C2 t Ht).
    apply Rmult_le_compat_r; [left; apply Rinv_0_lt_compat, HCV|]. set (F := Fac c1 c2 (w2 q) t) in *. assert (F * F <= 1) by nra. assert (N : 0 <= ca2 (prm P) / 2 * w2 q) by (apply Rmult_le_pos; [lra|apply w2_nonneg; assumption]). nra.
Qed.
Print Assumptions thermal_relaxation_partial.

(** unit density, no motion, no shear, a thermal impulse along the first axis *)
Definition heat_params (pinf : R) : par :=
  mkpar (mkparams STIFFENED_GAS 1 0 1 pinf 1 1 0 1 0 (7 / 5) 0 0 0 0 1 1 1 1 1 1 1) false false false false (fun _ => 0)
        (mkparams STIFFENED_GAS 1 0 1 pinf 1 1 0 1 0 (7 / 5) 0 0 0 0 1 1 1 1 1 1 1) (-1) 0.
Definition heat_opts : options := mkopt true true false 0 false false 1.
Definition heat_state : vec := fun k => match k with 0%nat => 1 | 1%nat => 10 | 5%nat | 9%nat | 13%nat => 1 | 14%nat => 1 | _ => 0 end.
Lemma heat_therm pinf : therm (heat_params pinf) heat_state = 10.
Proof. unfold therm, E_2A, E_3, devGsq, dot3, sum3, get_A, get_rhov, heat_state. cbn. field. Qed.
Lemma heat_w2 : w2 heat_state = 1.
Proof. unfold w2, dot3, sum3, get_rhoJ, heat_state. cbn. field. Qed.
Lemma heat_temperature sm pinf : temperature heat_opts (heat_params pinf) sm heat_state = 19 / 2 - pinf.
Proof.
  unfold temperature, temperature_mg, pressure, internal_energy, pressure_mg, e_ref, p_ref, Gamma_MG, E_2A, E_2J, E_3, devGsq, dot3, sum3, get_A, get_rhov, get_rhoJ, heat_state. cbn. field.
Qed.
Example thermal_relaxation_case : VISCOUS heat_opts = true /\ THERMAL heat_opts = true /\ ideal (heat_params 0) /\ conducting (heat_params 0) /\ 0 < heat_state 0%nat /\
  (forall sm, 0 < temperature heat_opts (heat_params 0) sm heat_state) /\ heat_state 14%nat <> 0.
Proof.
  unfold ideal, conducting. cbn [heat_params prm kind pINF Tref gam PMULTI REACTION kappa cv ca2 heat_state]. repeat split; try lra. intros sm. rewrite heat_temperature. lra.
Qed.
(** For a stiffened gas the step is not the flow of the source term: the reference energy is taken for heat. *)
Theorem thermal_relaxation_refuted : exists o P q, VISCOUS o = true /\ THERMAL o = true /\ kind (prm P) = STIFFENED_GAS /\ Tref (prm P) = 0 /\ REACTION P = (-1)%Z /\ conducting P /\ 0 < q 0%nat /\
  forall sm th1 rr, 0 < temperature o P sm q /\
    exists w : R -> vec, (forall t, relax_thermal P q t = Some (w t)) /\ ~ is_derive (fun t => w t 14%nat) 0 (source o P th1 (theta2inv o P sm) rr q 14%nat).
Proof.
  exists heat_opts, (heat_params 1), heat_state. split; [reflexivity|]. split; [reflexivity|]. split; [reflexivity|]. split; [reflexivity|]. split; [reflexivity|]. split; [unfold conducting; cbn; lra|]. split; [cbn; lra|].
  intros sm th1 rr. split; [rewrite heat_temperature; lra|]. set (P := heat_params 1). set (q := heat_state).
  assert (HC : 0 < kappa (prm P) /\ 0 < cv (prm P) /\ 0 < ca2 (prm P)) by (cbn; lra). assert (R0 : 0 < q 0%nat) by (cbn; lra).
  assert (TP : ca2 (prm P) / 2 * w2 q < therm P q) by (unfold P, q; rewrite heat_w2, heat_therm; cbn; lra).
  assert (C1 := c1_pos P q R0 HC TP). assert (C2 := c2_range P q R0 HC TP).
  eexists. split; [intros t; apply (thermal_eq P q R0 HC TP)|]. intros H. cbv beta in H.
  assert (H' : is_derive (fun t => q 14%nat * Fac (therm P q * kk P q) (ca2 (prm P) / 2 * kk P q) (w2 q) t) 0 (source heat_opts P th1 (theta2inv heat_opts P sm) rr q 14%nat)) by exact H.
  assert (D := is_derive_scal _ _ (q 14%nat) _ (Fac_derive _ _ _ C1 C2 0)). apply is_derive_unique in D. apply is_derive_unique in H'. assert (EQ := eq_trans (eq_sym D) H'). clear H' D H. rename EQ into H'. rewrite Fac_zero in H'.
  unfold source in H'. change (-1 <? REACTION P)%Z with false in H'. cbv iota zeta in H'. change (THERMAL heat_opts) with true in H'. cbv iota in H'. rewrite setseg_in in H' by lia. unfold theta2inv in H'. unfold P, q in H'. rewrite heat_temperature, heat_w2, heat_therm in H'. unfold kk, dEdJ, get_rhoJ in H'. cbn in H'. lra.
Qed.
Print Assumptions thermal_relaxation_refuted.
(** The thermal step of zero length is the identity, and every step keeps the direction of the impulse and everything else. *)
Theorem thermal_relaxation_keeps : forall P q dt q', relax_thermal P q dt = Some q' ->
  (forall k, ~ (14 <= k < 17)%nat -> q' k = q k) /\ (exists w, 0 < w /\ forall k, (14 <= k < 17)%nat -> q' k = q k * w) /\ (dt = 0 -> forall k, q' k = q k).
Proof.
  intros P q dt q' H. split; [intros k; apply (thermal_below _ _ _ _ _ H)|]. unfold relax_thermal in H. destruct (odiv (2 * _) _) as [kk'|]; [|discriminate]. cbn [obind] in H. destruct (odiv _ _) as [h|] in H; [|discriminate]. cbn [obind] in H.
  set (e := exp _) in H. destruct (osqrt _) as [w|] eqn:EW in H; [|discriminate]. cbn [obind] in H. destruct (odiv _ _) as [z|] eqn:EZ in H; [|discriminate]. injection H as <-. apply odiv_inv in EZ. destruct EZ as [WN ->]. apply osqrt_inv in EW. destruct EW as [W0 ->].
  assert (EP : 0 < e) by apply exp_pos. split.
  - eexists. split; [|intros k Hk; rewrite setseg_in by lia; do 2 f_equal; lia]. apply Rdiv_lt_0_compat; [exact EP|]. destruct (sqrt_pos (1 - h * (1 - e * e) * dot3 (get_rhoJ q) (get_rhoJ q) / (q 0%nat * q 0%nat))); [assumption|congruence].
  - intros Z0. assert (E1 : e = 1) by (unfold e; rewrite Z0; unfold Rdiv; rewrite Rmult_0_r, Rmult_0_l; apply exp_0). intros k. destruct (le_dec 14 k), (lt_dec k 17); try (apply setseg_out; lia). rewrite setseg_in by lia. rewrite E1.
    replace (1 - h * (1 - 1 * 1) * dot3 (get_rhoJ q) (get_rhoJ q) / (q 0%nat * q 0%nat)) with 1 by (unfold Rdiv; ring). rewrite sqrt_1. cbv beta. match goal with |- q ?n * _ = _ => replace n with k by lia end. field.
Qed.
Print Assumptions thermal_relaxation_keeps.
(** The body force step is the exact flow of the momentum source. *)
Theorem body_force_step : forall o P th1 th2 rr q t k, (2 <= k < 5)%nat ->
  body_forces P q 0 k = q k /\ is_derive (fun t => body_forces P q t k) t (source o P th1 th2 rr (body_forces P q t) k) /\
  forall j, ~ (2 <= j < 5)%nat -> body_forces P q t j = q j.
Proof.
  intros o P th1 th2 rr q t k Hk. assert (E : forall u, body_forces P q u k = q k + body P (k - 2)%nat * u) by (intros u; unfold body_forces; rewrite setseg_in by lia; do 2 f_equal; lia).
  split; [rewrite E; ring|]. split; [|intros j Hj; apply setseg_out; lia].
  apply is_derive_ext with (fun u => q k + body P (k - 2)%nat * u); [intros u; symmetry; apply E|].
  assert (SR : source o P th1 th2 rr (body_forces P q t) k = body P (k - 2)%nat).
  { unfold source. destruct (-1 <? REACTION P)%Z; [rewrite set1_other by (unfold mV; lia)|];
    (destruct (THERMAL o); [rewrite setseg_out by lia|]); (destruct (VISCOUS o); [rewrite setseg_out by lia|]); apply setseg_in; lia. }
  rewrite SR. auto_derive; [exact I|ring].
Qed.
Print Assumptions body_force_step.

(** ** C61 *)
(** y' = a y + b, solved from [y] over a time [t] *)
Definition exact_affine (a b y t : R) : R := (y + b / a) * exp (a * t) - b / a.
(** The integrator has no error for constant rates, stays at equilibria, multiplies by the fourth Taylor polynomial of
    the exponential in each of [N] steps for linear rates, and its error for them decreases like [1/N^4]. *)
Theorem runge_kutta_values : forall fuel tf y N, (1 <= N)%Z ->
  (forall c, runge_kutta_launcher (fun _ => Ok (Some c)) fuel tf (Some y) N = Ok (Some (y + c * tf))) /\
  (forall f, f (Some y) = Ok (Some 0) -> runge_kutta_launcher f fuel tf (Some y) N = Ok (Some y)) /\
  (forall a, runge_kutta_launcher (fun y => Ok (option_map (Rmult a) y)) fuel tf (Some y) N = Ok (Some (y * taylor4 (a * tf / IZR N) ^ Z.to_nat N))) /\
  (forall a b, a <> 0 -> exists z, runge_kutta_launcher (fun y => Ok (option_map (fun y => a * y + b) y)) fuel tf (Some y) N = Ok (Some z) /\
     Rabs (z - exact_affine a b y tf) <= Rabs (y + b / a) * (Rabs (a * tf) ^ 5 / 120 * exp (Rabs (a * tf)) / IZR N ^ 4)).
Proof.
  intros fuel tf y N HN. assert (NZ : 0 < IZR N) by (apply IZR_lt; lia).
  assert (NN : INR (Z.to_nat N) = IZR N) by (rewrite INR_IZR_INZ, Z2Nat.id by lia; reflexivity).
  split; [|split; [|split]].
  - intros c. unfold runge_kutta_launcher, runge_kutta. rewrite steps_const. cbn [bind]. rewrite launch_some. do 2 f_equal. rewrite NN. field. lra.
  - intros f F. unfold runge_kutta_launcher, runge_kutta. rewrite steps_fixed by exact F. cbn [bind]. apply launch_some.
  - intros a. unfold runge_kutta_launcher, runge_kutta. rewrite steps_linear. cbn [bind]. rewrite launch_some. do 5 f_equal. unfold Rdiv. ring.
  - intros a b A. unfold runge_kutta_launcher, runge_kutta. rewrite steps_affine by exact A. cbn [bind]. rewrite launch_some. eexists. split; [reflexivity|]. unfold exact_affine.
    replace ((y + b / a) * taylor4 (a * (tf / IZR N)) ^ Z.to_nat N - b / a - ((y + b / a) * exp (a * tf) - b / a)) with ((y + b / a) * (taylor4 (a * (tf / IZR N)) ^ Z.to_nat N - exp (a * tf))) by ring.
    rewrite Rabs_mult. apply Rmult_le_compat_l; [apply Rabs_pos|]. destruct (Z.to_nat N) as [|n] eqn:EN; [lia|]. rewrite <- NN. replace (a * (tf / INR (S n))) with (a * tf / INR (S n)) by (unfold Rdiv; ring). apply order4.
Qed.
Print Assumptions runge_kutta_values.
(** the exact solution it is compared with *)
Theorem exact_affine_solves : forall a b y, a <> 0 -> exact_affine a b y 0 = y /\ forall t, is_derive (exact_affine a b y) t (a * exact_affine a b y t + b).
Proof. intros a b y A. split; [unfold exact_affine; rewrite Rmult_0_r, exp_0; field; exact A|]. intros t. unfold exact_affine. auto_derive; [exact I|]. field. exact A. Qed.
Print Assumptions exact_affine_solves.
(** From at least one step on the launcher returns for every right-hand side that returns: seven doublings are enough.
    Its result is that of the first number of steps N, 2N, 4N, ... whose result is a number, or of the first one above 64. *)
Theorem runge_kutta_returns : forall f tf y N, (1 <= N)%Z -> (forall y, f y <> NoFuel) ->
  runge_kutta_launcher f 7 tf y N <> NoFuel /\
  forall fuel z, runge_kutta_launcher f fuel tf y N = Ok z -> exists k, runge_kutta f tf y (2 ^ Z.of_nat k * N) = Ok z /\
    (forall i, (i < k)%nat -> runge_kutta f tf y (2 ^ Z.of_nat i * N) = Ok None) /\ (z = None -> (64 < 2 ^ Z.of_nat k * N)%Z).
Proof.
  intros f tf y N HN HF. split.
  - unfold runge_kutta_launcher. destruct (runge_kutta f tf y N) as [y0| | |] eqn:E; cbn [bind]; try discriminate; [|exfalso; exact (steps_fuel f HF _ _ _ E)]. apply launch_fuel; [exact HF|]. change (2 ^ Z.of_nat 7)%Z with 128%Z. lia.
  - intros fuel z H. unfold runge_kutta_launcher in H. destruct (runge_kutta f tf y N) as [y0| | |] eqn:E; cbn [bind] in H; try discriminate. exact (launch_result f fuel tf y y0 N z E H).
Qed.
Print Assumptions runge_kutta_returns.
(** Asked for zero steps from a NaN it does not return. *)
Theorem runge_kutta_returns_refuted : forall f tf fuel, runge_kutta_launcher f fuel tf None 0 = NoFuel.
Proof.
  intros f tf fuel. unfold runge_kutta_launcher. change (runge_kutta f tf None 0) with (@Ok (option R) None). cbn [bind]. induction fuel as [|fuel IH]; [reflexivity|]. cbn [launch isnan]. change (runge_kutta f tf None (2 * 0)) with (@Ok (option R) None). cbn [bind]. exact IH.
Qed.
Print Assumptions runge_kutta_returns_refuted.
Example runge_kutta_case : (1 <= RK_STEPS)%Z /\ exists f, f (Some 1) = Ok (Some 0) /\ (forall y, f y <> NoFuel) /\ f (Some 2) = Ok (Some (-1)).
Proof. split; [unfold RK_STEPS; lia|]. exists (fun y => Ok (option_map (fun y => 1 - y) y)). cbn. split; [do 2 f_equal; ring|]. split; [discriminate|do 2 f_equal; ring]. Qed.

(** ** C60 *)
Lemma reaction_rate_nonneg o P K sm Q x : 0 <= Kc K -> 0 <= rB K -> reaction_rate o P K sm Q = Ok (Some x) -> 0 <= x.
Proof.
  intros HK HB. assert (L : 0 <= cmax 0 (Q (mV o) / Q 0%nat)) by (unfold cmax; destruct (Rlt_dec _ _); lra). unfold reaction_rate. set (l := cmax 0 _) in *.
  destruct (REACTION P) as [|[| [|p|] |]|]; try discriminate.
  - intros [= <-]. destruct (Rlt_dec _ _); [apply Rmult_le_pos; assumption|lra].
  - cbn zeta. match goal with |- Ok (option_map _ ?r) = _ -> _ => destruct r as [w|]; cbn [option_map]; [|discriminate] end. intros [= <-]. unfold cmax. destruct (Rlt_dec w 0); lra.
  - intros [= <-]. apply Rmult_le_pos; [|exact L]. apply Rmult_le_pos; [exact HB|left; apply exp_pos].
Qed.
Lemma func_ok o P K sm z : (REACTION P = 0 \/ REACTION P = 1 \/ REACTION P = 2)%Z -> forall q l, exists w, func o P K sm (Ok z) q l = Ok w.
Proof.
  intros H q [l|]; [|exists z; reflexivity]. unfold func, reaction_rate. destruct H as [->|[->| ->]]; cbn [bind]; eexists; reflexivity.
Qed.
Lemma steps_ok f n : (forall y, exists w, f y = Ok w) -> forall y dt, exists w, rk_steps f n y dt = Ok w.
Proof.
  intros F. induction n as [|n IH]; intros y dt; cbn [rk_steps]; [eexists; reflexivity|]. unfold rk4. destruct (F y) as [k1 ->]. cbn [bind]. destruct (F (oadd y (oscale (/ 2) (oscale dt k1)))) as [k2 ->]. cbn [bind].
  destruct (F (oadd y (oscale (/ 2) (oscale dt k2)))) as [k3 ->]. cbn [bind]. destruct (F (oadd y (oscale dt k3))) as [k4 ->]. cbn [bind]. apply IH.
Qed.
Lemma launch_ok f fuel : (forall y, exists w, f y = Ok w) -> forall tf y y0 N, launch f fuel tf y y0 N = NoFuel \/ exists w, launch f fuel tf y y0 N = Ok w.
Proof.
  intros F. induction fuel as [|fuel IH]; intros tf y y0 N; cbn [launch]; (destruct (isnan y0); [|right; eexists; reflexivity]); [left; reflexivity|].
  unfold runge_kutta. destruct (steps_ok f (Z.to_nat (2 * N)) F y (tf / IZR (2 * N))) as [w ->]. cbn [bind]. destruct (64 <? 2 * N)%Z; [right; eexists; reflexivity|apply IH].
Qed.
(** the value at a NaN, of whatever kind: [std::max(0., NaN)] is 0, so the rate at a NaN is some double *)
Section ReactionProps.
Variables (o : options) (P : par) (K : rates) (sm : vec -> R * R * R) (z : option R).
Notation step := (ode_stepper_numerical o P K sm (Ok z)).
(** The reaction step changes nothing but the concentration, keeps it non-negative and never changes one that is not
    positive; for rate laws with non-negative constants it never increases the concentration. *)
Theorem reaction_step : forall fuel q dt q', 0 < q 0%nat -> step fuel q dt = Ok q' ->
  (forall k, k <> mV o -> q' k = q k) /\ (0 <= q (mV o) -> 0 <= q' (mV o)) /\ (q (mV o) <= 0 -> q' (mV o) = q (mV o)) /\
  (0 <= Kc K -> 0 <= rB K -> 0 <= dt -> q' (mV o) <= q (mV o)).
Proof.
  intros fuel q dt q' R0 H. unfold ode_stepper_numerical in H. destruct (-1 <? REACTION P)%Z; [|injection H as <-; repeat split; intros; lra || assumption].
  destruct (Rlt_dec 0 (q (mV o) / q 0%nat)) as [L|L]; [|injection H as <-; repeat split; intros; lra || assumption].
  assert (Q0 : 0 < q (mV o)). { apply Rmult_lt_reg_r with (/ q 0%nat); [apply Rinv_0_lt_compat, R0|]. rewrite Rmult_0_l. exact L. }
  destruct (runge_kutta_launcher _ _ _ _ _) as [l| | |] eqn:E in H; cbn [bind] in H; try discriminate. injection H as <-.
  set (l' := match l with Some l0 => cmax 0 l0 | None => 0 end). assert (L0 : 0 <= l') by (unfold l'; destruct l as [l|]; [unfold cmax; destruct (Rlt_dec 0 l)|]; lra).
  split; [intros k Hk; apply set1_other; exact Hk|]. rewrite set1_same. split; [intros _; apply Rmult_le_pos; lra|]. split; [lra|].
  intros HK HB Hdt. assert (LE : l' <= q (mV o) / q 0%nat).
  { unfold l'. destruct l as [l|]; [|lra]. unfold runge_kutta_launcher in E. destruct (runge_kutta _ dt _ RK_STEPS) as [y0| | |] eqn:E0; cbn [bind] in E; try discriminate.
    destruct (launch_result _ _ _ _ _ _ _ E0 E) as [k [EK _]]. unfold runge_kutta in EK. apply steps_decay in EK.
    - unfold cmax. destruct (Rlt_dec 0 l); lra.
    - intros y w Hy. unfold func in Hy. destruct (reaction_rate o P K sm _) as [rr| | |] eqn:ER in Hy; cbn [bind] in Hy; try discriminate. injection Hy as Hy. destruct rr as [rr|]; cbn in Hy; [|discriminate]. injection Hy as <-. apply reaction_rate_nonneg in ER; lra.
    - apply Rdiv_le_0_compat; [exact Hdt|]. apply IZR_lt. apply Z.mul_pos_pos; [apply Z.pow_pos_nonneg; lia|unfold RK_STEPS; lia]. }
  apply Rmult_le_compat_l with (r := q 0%nat) in LE; [|lra]. replace (q 0%nat * (q (mV o) / q 0%nat)) with (q (mV o)) in LE by (field; lra). exact LE.
Qed.
(** The step is total for the known rate laws, and throws for any other if there is something to burn. *)
Theorem reaction_step_total : forall q dt,
  ((REACTION P <= 2)%Z -> exists q', step 5 q dt = Ok q') /\ ((2 < REACTION P)%Z -> 0 < q (mV o) / q 0%nat -> forall fuel, step fuel q dt = Throw "Reaction type not recognized").
Proof.
  intros q dt. split.
  - intros HR. unfold ode_stepper_numerical. destruct (Z.ltb_spec (-1) (REACTION P)); [|eexists; reflexivity]. destruct (Rlt_dec 0 _) as [L|L]; [|eexists; reflexivity].
    assert (F := func_ok o P K sm z ltac:(lia) q). unfold runge_kutta_launcher, runge_kutta. destruct (steps_ok _ (Z.to_nat RK_STEPS) F (Some (q (mV o) / q 0%nat)) (dt / IZR RK_STEPS)) as [w EW]. rewrite EW. cbn [bind].
    destruct (launch_ok _ 5 F dt (Some (q (mV o) / q 0%nat)) w RK_STEPS) as [N|[w' ->]]; [|cbn [bind]; eexists; reflexivity]. exfalso. revert N. apply launch_fuel; [|unfold RK_STEPS; cbn; lia].
    intros y. destruct (F y) as [v ->]. discriminate.
  - intros HR HL fuel. unfold ode_stepper_numerical. destruct (Z.ltb_spec (-1) (REACTION P)); [|lia]. destruct (Rlt_dec 0 _) as [L|L]; [|contradiction]. unfold runge_kutta_launcher, runge_kutta. change (Z.to_nat RK_STEPS) with 4%nat. cbn [rk_steps].
    unfold rk4, func, reaction_rate. destruct (REACTION P) as [|[[p|p|]|[p|p|]|]|p]; try lia; reflexivity.
Qed.
(** A rate that is not a number burns everything: the concentration becomes zero without a warning. *)
Theorem reaction_nan_burns : forall q dt, (-1 < REACTION P)%Z -> 0 < q (mV o) / q 0%nat ->
  reaction_rate o P K sm (set1 q (mV o) (q 0%nat * (q (mV o) / q 0%nat))) = Ok None -> exists q', step 5 q dt = Ok q' /\ q' (mV o) = 0.
Proof.
  intros q dt HR HL HN. assert (R2 : (REACTION P <= 2)%Z). { destruct (Z.le_gt_cases (REACTION P) 2); [assumption|]. exfalso. revert HN. unfold reaction_rate. destruct (REACTION P) as [|[[p|p|]|[p|p|]|]|p]; try lia; discriminate. }
  destruct (proj1 (reaction_step_total q dt) R2) as [q' E]. exists q'. split; [exact E|]. unfold ode_stepper_numerical in E. destruct (Z.ltb_spec (-1) (REACTION P)); [|lia]. destruct (Rlt_dec 0 _) as [L|L]; [|contradiction].
  destruct (runge_kutta_launcher _ _ _ _ _) as [l| | |] eqn:EL in E; cbn [bind] in E; try discriminate. injection E as <-. rewrite set1_same. destruct l as [l|]; [|ring]. exfalso.
  unfold runge_kutta_launcher in EL. destruct (runge_kutta _ dt _ RK_STEPS) as [y0| | |] eqn:E0; cbn [bind] in EL; try discriminate. destruct (launch_result _ _ _ _ _ _ _ E0 EL) as [k [EK _]]. unfold runge_kutta in EK.
  destruct (Z.to_nat (2 ^ Z.of_nat k * RK_STEPS)) as [|n] eqn:EN; [assert (0 < 2 ^ Z.of_nat k * RK_STEPS)%Z by (apply Z.mul_pos_pos; [apply Z.pow_pos_nonneg; lia|unfold RK_STEPS; lia]); lia|].
  cbn [rk_steps] in EK. destruct (rk4 _ _ _) as [d| | |] eqn:ED in EK; cbn [bind] in EK; try discriminate.
  assert (d = None). { unfold rk4 in ED. unfold func at 1 in ED. rewrite HN in ED. cbn [bind option_map] in ED. repeat match type of ED with bind ?a _ = _ => destruct a as [?k| | |]; cbn [bind] in ED; try discriminate end. cbn in ED. congruence. }
  subst d. apply steps_nan in EK. discriminate.
Qed.
End ReactionProps.
Print Assumptions reaction_step.
Print Assumptions reaction_step_total.
Print Assumptions reaction_nan_burns.
(** a state with something to burn, and a rate law that is not a number there *)
Definition burn_params (r : Z) : par := let p := heat_params 0 in mkpar (prm p) false false false false (fun _ => 0) (prm p) r 0.
Definition burn_opts : options := mkopt true false true 0 false false 1.
Definition burn_rates : rates := mkrates 1 0 1 1 1 1 0 0 0 1 1 1 1 1 (/ 2) 1 1 1 0 1.
Definition burn_state : vec := fun k => match k with 0%nat => / 2 | 1%nat => 10 | 5%nat | 9%nat | 13%nat => 1 | 14%nat => / 4 | _ => 0 end.
Example reaction_case : 0 < burn_state 0%nat /\ 0 < burn_state (mV burn_opts) /\ (REACTION (burn_params 0) <= 2)%Z /\
  (forall sm, (-1 < REACTION (burn_params 2))%Z /\ 0 < burn_state (mV burn_opts) / burn_state 0%nat /\
   reaction_rate burn_opts (burn_params 2) burn_rates sm (set1 burn_state (mV burn_opts) (burn_state 0%nat * (burn_state (mV burn_opts) / burn_state 0%nat))) = Ok None).
Proof.
  split; [cbn; lra|]. split; [cbn; lra|]. split; [cbn; lia|]. intros sm. split; [cbn; lia|]. split; [cbn; lra|].
  unfold reaction_rate. set (Q := set1 _ _ _). assert (Q0 : Q 0%nat = / 2) by reflexivity. assert (Q1 : Q (mV burn_opts) = / 4) by (unfold Q; rewrite set1_same; cbn; field). rewrite Q0, Q1.
  replace (cmax 0 (/ 4 / / 2)) with (/ 2) by (unfold cmax; destruct (Rlt_dec _ _); lra). replace (cmin (/ 2) 1) with (/ 2) by (unfold cmin; destruct (Rlt_dec _ _); lra).
  change (REACTION (burn_params 2)) with 2%Z. cbv zeta iota beta. change (phiI burn_rates) with 1. destruct (Rlt_dec (1 - / 2) 1); [|lra].
  assert (N : cpow (/ 2 / rho0 (prm (burn_params 2)) - 1 - ra burn_rates) (rx burn_rates) = None).
  { change (rho0 (prm (burn_params 2))) with 1. change (ra burn_rates) with 0. change (rx burn_rates) with (/ 2). unfold cpow. destruct (Rlt_dec 0 (/ 2 / 1 - 1 - 0)); [lra|]. assert (NI : is_int (/ 2) = false).
    { unfold is_int. destruct (Req_EM_T _ _) as [E|]; [|reflexivity]. exfalso. assert (IZR (Int_part (/ 2)) < 1) by lra. assert (0 < IZR (Int_part (/ 2))) by lra. apply lt_IZR in H. apply (lt_IZR 0) in H0. lia. }
    rewrite NI. destruct (Req_EM_T _ _); [lra|reflexivity]. }
  rewrite N. destruct (cpow (/ 2) (rb burn_rates)); cbn [omap2 option_map]; change (phiG1 burn_rates) with 0; change (phiG2 burn_rates) with 1; (destruct (Rlt_dec (1 - / 2) 0); [lra|]); (destruct (Rlt_dec 1 (1 - / 2)); [lra|]); reflexivity.
Qed.
