(** C79, C80: mixtures of two materials. *)
From Coq Require Import Reals ZArith Lra Psatz Lia.
From Coquelicot Require Import Coquelicot.
From Verif Require Import Base Options Sum Mat3 PhysModel PhysSpec PhysProof KrylovModel KrylovProof2 KrylovProps MultiModel.
Open Scope R_scope.

(** ** C79 *)
(** The mixture law: the specific volumes and the energies add up, weighted with the mass fractions; the materials share
    pressure and temperature. *)
Definition volumes_add (rho l r1 r2 : R) : Prop := l / r1 + (1 - l) / r2 = 1 / rho.
Definition energy_defect MP1 MP2 (e l p r1 r2 : R) : R := e - (l * E_1 MP1 r1 p + (1 - l) * E_1 MP2 r2 p).
Definition temperature_defect MP1 MP2 (p r1 r2 : R) : R := temperature_mg MP1 r1 p - temperature_mg MP2 r2 p.

Lemma volumes rho l r1 : l <> 1 -> 1 / rho <> l / r1 -> volumes_add rho l r1 (other_density rho l r1).
Proof.
  intros L H. unfold volumes_add, other_density.
  assert (A : (1 - l) / ((1 - l) / (1 / rho - l / r1)) = 1 / rho - l / r1).
  { assert (1 / rho - l / r1 <> 0) by lra. assert (1 - l <> 0) by lra.
    set (x := 1 / rho - l / r1) in *. clearbody x. field. split; assumption. }
  rewrite A. ring.
Qed.

(** The solver always returns. In a cell of one material the pressure is that of its equation of state, cut off at zero.
    Otherwise the partial densities satisfy the volume law exactly, and unless the iteration was exhausted the energies
    and temperatures agree to the tolerance of the solver. *)
Theorem mixture_returns o P qr lsolve junk Q :
  let rho := Q 0%nat in let l := Q (mV o) / rho in let e := internal_energy o P Q in
  exists p r1 r2, solve_multi o P qr lsolve junk Q = Ok (p, r1, r2) /\
    (l = 1 -> p = Rmax (pressure_mg (prm P) rho e) 0 /\ r1 = rho /\ r2 = rho) /\
    (l = 0 -> p = Rmax (pressure_mg (MP2 P) rho e) 0 /\ r1 = rho /\ r2 = rho) /\
    (l <> 0 -> l <> 1 -> exists k, (k <= 9)%nat /\
      (1 / rho <> l / r1 -> volumes_add rho l r1 r2) /\
      ((k < 9)%nat -> Rabs (energy_defect (prm P) (MP2 P) e l p r1 r2) <= f_tol default_tols /\
                      Rabs (temperature_defect (prm P) (MP2 P) p r1 r2) <= f_tol default_tols)).
Proof.
  cbv zeta. unfold solve_multi. set (rho := Q 0%nat). set (l := Q (mV o) / rho). set (e := internal_energy o P Q).
  assert (MX : forall a, cmax a 0 = Rmax a 0).
  { intros a. unfold cmax, Rmax. destruct (Rlt_dec a 0), (Rle_dec a 0); try lra; reflexivity. }
  destruct (Req_EM_T l 1) as [L1|L1].
  { do 3 eexists. split; [reflexivity|]. rewrite MX. split; [intros _; auto|]. split; [intros; lra|congruence]. }
  destruct (Req_EM_T l 0) as [L0|L0].
  { do 3 eexists. split; [reflexivity|]. rewrite MX. split; [intros; lra|]. split; [intros _; auto|congruence]. }
  match goal with |- context [nonlin_solve 2 ?F qr lsolve junk default_tols ?x] =>
    destruct (newton_returns_partial 2 F qr lsolve junk default_tols x ltac:(lia)) as [st [k [E [_ [K C]]]]] end.
  rewrite E. cbn [bind]. do 3 eexists. split; [reflexivity|]. split; [congruence|]. split; [congruence|]. intros _ _.
  exists k. split; [lia|]. split; [apply volumes; exact L1|]. intros Lt. specialize (C ltac:(lia)).
  assert (T0 : 0 < f_tol default_tols) by (cbn; apply exp_pos).
  match type of C with maxnorm 2 ?f = 0 \/ _ => assert (U : forall i, (i < 2)%nat -> Rabs (f i) <= f_tol default_tols) end.
  { intros i Hi. eapply Rle_trans; [apply (maxabs_ub 2); exact Hi|]. unfold maxnorm in C. destruct C as [C|[C _]]; lra. }
  split.
  - specialize (U 0%nat ltac:(lia)). cbn [mix_obj] in U. unfold mix_obj in U. unfold energy_defect.
    match goal with |- Rabs ?a <= _ => match type of U with Rabs ?b <= _ => replace a with b by ring end end. exact U.
  - specialize (U 1%nat ltac:(lia)). exact U.
Qed.
Print Assumptions mixture_returns.

(** A mixture of a material with itself is that material: the pressure is that of the equation of state and both partial
    densities are the density, found without iterating, at every concentration (when the pressure is not negative). *)
Theorem mixture_of_one_material o P qr lsolve junk Q : MP2 P = prm P -> Q 0%nat <> 0 -> Gamma_MG (prm P) (Q 0%nat) <> 0 ->
  0 <= pressure_mg (prm P) (Q 0%nat) (internal_energy o P Q) ->
  solve_multi o P qr lsolve junk Q = Ok (pressure_mg (prm P) (Q 0%nat) (internal_energy o P Q), Q 0%nat, Q 0%nat).
Proof.
  intros Same Hr HG Hp. unfold solve_multi. rewrite Same. set (rho := Q 0%nat) in *. set (l := Q (mV o) / rho). set (e := internal_energy o P Q) in *.
  set (p := pressure_mg (prm P) rho e) in *.
  assert (MX : cmax p 0 = p) by (unfold cmax; destruct (Rlt_dec p 0); lra).
  destruct (Req_EM_T l 1) as [L1|L1]; [rewrite MX; reflexivity|].
  destruct (Req_EM_T l 0) as [L0|L0]; [rewrite MX; reflexivity|].
  assert (AV : average_pressure P rho e l = p).
  { unfold average_pressure. rewrite Same. fold p. replace (l * p + (1 - l) * p) with p by ring. exact MX. }
  rewrite AV.
  assert (OD : other_density rho l rho = rho) by (unfold other_density; replace (1 / rho - l / rho) with ((1 - l) / rho) by (field; exact Hr); field; split; [exact Hr|lra]).
  match goal with |- context [nonlin_solve 2 ?F qr lsolve junk default_tols ?x] =>
    destruct (newton_at_root 2 F qr lsolve junk default_tols x) as [st [E X]] end.
  { apply maxabs_zero. intros i Hi. unfold mix_obj. rewrite OD.
    destruct i as [|i]; [|ring]. assert (EI : E_1 (prm P) rho p = e) by (unfold p, E_1, pressure_mg; field; split; assumption). rewrite EI. ring. }
  rewrite E. cbn [bind]. rewrite X, OD. reflexivity.
Qed.
Print Assumptions mixture_of_one_material.

Example mixture_case : exists P Q, MP2 P = prm P /\ PMULTI P = true /\ Q 0%nat <> 0 /\ Gamma_MG (prm P) (Q 0%nat) <> 0 /\
  0 < pressure_mg (prm P) (Q 0%nat) (internal_energy shipped P Q) /\ Q (mV shipped) / Q 0%nat = 1 / 2.
Proof.
  set (m := mkparams STIFFENED_GAS 1 0 1 0 2 1 3 1 0 (7 / 5) 1 1 2 3 0 1 1 1 1 1 1).
  exists (mkpar m false false true false (fun _ => 0) m (-1) 0), (fun k => match k with 0%nat => 1 | 1%nat => 1 | 14%nat => 1 / 2 | _ => 0 end).
  cbn. unfold pressure_mg, internal_energy, E_3, E_2A, devGsq, get_rhov, get_A, dot3, sum3, e_ref, p_ref, Gamma_MG, C_0, c_s2. cbn.
  repeat split; try lra.
Qed.
(** so a mixture of one material has the pressure a program without mixtures computes *)
Corollary mixture_pressure o P P' qr lsolve junk sm Q : PMULTI P = true -> PMULTI P' = false -> prm P' = prm P -> Qc P' = Qc P -> REACTION P' = REACTION P ->
  MP2 P = prm P -> Q 0%nat <> 0 -> Gamma_MG (prm P) (Q 0%nat) <> 0 -> 0 <= pressure o P' sm Q ->
  pressure o P (mixture o P qr lsolve junk) Q = pressure o P' sm Q.
Proof.
  intros HM HM' Ep Eq Er Same Hr HG Hp. unfold pressure in *. rewrite HM. rewrite HM' in *.
  assert (I : internal_energy o P' Q = internal_energy o P Q) by (unfold internal_energy, E_2A, E_2J, E_R; rewrite Ep, Eq, Er; reflexivity).
  rewrite Ep, I in *. unfold mixture. rewrite (mixture_of_one_material o P qr lsolve junk Q Same Hr HG Hp). reflexivity.
Qed.
Print Assumptions mixture_pressure.

(** ** C80 *)
(** [r1], [r2]: the partial densities of the mixture as functions of the density at constant pressure *)
Definition equilibrium_curve MP1 MP2 (l p : R) (r1 r2 : R -> R) (s : R) : Prop :=
  volumes_add s l (r1 s) (r2 s) /\ temperature_mg MP1 (r1 s) p = temperature_mg MP2 (r2 s) p.
(** the part of the energy of the mixture that depends on the partial densities *)
Definition mixture_energy MP1 MP2 (l p a b : R) : R := l * E_1 MP1 a p + (1 - l) * E_1 MP2 b p.

(** dEdrho is the derivative of the energy of the mixture with respect to the density along the states of thermal and
    mechanical equilibrium (and of the shear energy). Needs reference temperatures 0, see C47. *)
Theorem mixture_density_derivative_partial o P sm Q (p x1 x2 : R) (r1 r2 : R -> R) (d1 d2 : R) : PMULTI P = true ->
  let rho := Q 0%nat in let l := Q (mV o) / rho in let MP1 := prm P in let MP2 := MP2 P in
  sm Q = (p, x1, x2) -> rho <> 0 ->
  eos_ok MP1 x1 -> eos_ok MP2 x2 -> Gamma_MG MP1 x1 <> 0 -> Gamma_MG MP2 x2 <> 0 -> cv MP1 <> 0 -> cv MP2 <> 0 -> Tref MP1 = 0 -> Tref MP2 = 0 ->
  r1 rho = x1 -> r2 rho = x2 -> is_derive r1 rho d1 -> is_derive r2 rho d2 -> locally rho (equilibrium_curve MP1 MP2 l p r1 r2) ->
  l / (x1 * x1) * dTdrho MP2 x2 p + (1 - l) / (x2 * x2) * dTdrho MP1 x1 p <> 0 ->
  is_derive (fun s => mixture_energy MP1 MP2 l p (r1 s) (r2 s)) rho (dEdrho o P sm Q - dC_0drho MP1 rho / 4 * devGsq (get_A Q)).
Proof.
  intros HM rho l MP1 MP2 ES Hr OK1 OK2 G1 G2 C1 C2 T1 T2 R1 R2 D1 D2 EQ HC.
  assert (X1 : 0 < x1) by apply OK1. assert (X2 : 0 < x2) by apply OK2.
  assert (DV : - l * d1 / (x1 * x1) - (1 - l) * d2 / (x2 * x2) = - 1 / (rho * rho)).
  { assert (A : is_derive (fun s => l / r1 s + (1 - l) / r2 s) rho (- l * d1 / (x1 * x1) - (1 - l) * d2 / (x2 * x2))).
    { auto_derive; [rewrite R1, R2; repeat split; try lra; [exists d1; exact D1|exists d2; exact D2]|].
      replace (Derive (fun x : R => r1 x) rho) with d1 by (symmetry; exact (is_derive_unique _ _ _ D1)). replace (Derive (fun x : R => r2 x) rho) with d2 by (symmetry; exact (is_derive_unique _ _ _ D2)). rewrite R1, R2. field. split; lra. }
    assert (B : is_derive (fun s => 1 / s) rho (- 1 / (rho * rho))) by (auto_derive; [exact Hr|field; exact Hr]).
    apply (is_derive_ext_loc _ (fun s => 1 / s)) in A; [|revert EQ; apply filter_imp; intros s [E _]; exact E].
    rewrite <- (is_derive_unique _ _ _ A). exact (is_derive_unique _ _ _ B). }
  assert (DT : d1 * dTdrho MP1 x1 p = d2 * dTdrho MP2 x2 p).
  { assert (A1 : is_derive (fun s => temperature_mg MP1 (r1 s) p) rho (d1 * dTdrho MP1 x1 p)).
    { apply (is_derive_comp (fun t => temperature_mg MP1 t p) r1 rho (dTdrho MP1 x1 p) d1); [|exact D1]. rewrite R1.
      assert (D := dT_rho_ok MP1 x1 OK1 G1 p C1). rewrite T1, Rmult_0_l, Rplus_0_r in D. exact D. }
    assert (A2 : is_derive (fun s => temperature_mg MP2 (r2 s) p) rho (d2 * dTdrho MP2 x2 p)).
    { apply (is_derive_comp (fun t => temperature_mg MP2 t p) r2 rho (dTdrho MP2 x2 p) d2); [|exact D2]. rewrite R2.
      assert (D := dT_rho_ok MP2 x2 OK2 G2 p C2). rewrite T2, Rmult_0_l, Rplus_0_r in D. exact D. }
    apply (is_derive_ext_loc _ (fun s => temperature_mg MP2 (r2 s) p)) in A1; [|revert EQ; apply filter_imp; intros s [_ E]; exact E].
    rewrite <- (is_derive_unique _ _ _ A1). exact (is_derive_unique _ _ _ A2). }
  set (t1 := dTdrho MP1 x1 p) in *. set (t2 := dTdrho MP2 x2 p) in *. set (c := l / (x1 * x1) * t2 + (1 - l) / (x2 * x2) * t1) in *.
  assert (E1 : d1 = 1 / (rho * rho * c) * t2).
  { assert (Z : d1 * c = t2 / (rho * rho)).
    { unfold c. replace (d1 * (l / (x1 * x1) * t2 + (1 - l) / (x2 * x2) * t1)) with (t2 * (l * d1 / (x1 * x1)) + (1 - l) / (x2 * x2) * (d1 * t1)) by (field; lra).
      rewrite DT. replace (t2 * (l * d1 / (x1 * x1)) + (1 - l) / (x2 * x2) * (d2 * t2)) with (- t2 * (- l * d1 / (x1 * x1) - (1 - l) * d2 / (x2 * x2))) by (field; lra).
      rewrite DV. field. exact Hr. }
    replace d1 with (d1 * c / c) by (field; exact HC). rewrite Z. field. split; assumption. }
  assert (E2 : d2 = 1 / (rho * rho * c) * t1).
  { assert (Z : d2 * c = t1 / (rho * rho)).
    { unfold c. replace (d2 * (l / (x1 * x1) * t2 + (1 - l) / (x2 * x2) * t1)) with (l / (x1 * x1) * (d2 * t2) + t1 * ((1 - l) * d2 / (x2 * x2))) by (field; lra).
      rewrite <- DT. replace (l / (x1 * x1) * (d1 * t1) + t1 * ((1 - l) * d2 / (x2 * x2))) with (- t1 * (- l * d1 / (x1 * x1) - (1 - l) * d2 / (x2 * x2))) by (field; lra).
      rewrite DV. field. exact Hr. }
    replace d2 with (d2 * c / c) by (field; exact HC). rewrite Z. field. split; assumption. }
  unfold dEdrho. rewrite HM, ES. fold rho l MP1 MP2 t1 t2. fold c.
  replace (l * dedrho MP1 x1 p * (1 / (rho * rho * c) * t2) + (1 - l) * dedrho MP2 x2 p * (1 / (rho * rho * c) * t1) + dC_0drho MP1 rho / 4 * devGsq (get_A Q) - dC_0drho MP1 rho / 4 * devGsq (get_A Q))
    with (l * (d1 * dedrho MP1 x1 p) + (1 - l) * (d2 * dedrho MP2 x2 p)) by (rewrite E1, E2; ring).
  unfold mixture_energy.
  assert (A1 : is_derive (fun s => E_1 MP1 (r1 s) p) rho (d1 * dedrho MP1 x1 p)).
  { apply (is_derive_comp (fun t => E_1 MP1 t p) r1 rho (dedrho MP1 x1 p) d1); [rewrite R1; exact (dE1_rho_ok MP1 x1 OK1 G1 p)|exact D1]. }
  assert (A2 : is_derive (fun s => E_1 MP2 (r2 s) p) rho (d2 * dedrho MP2 x2 p)).
  { apply (is_derive_comp (fun t => E_1 MP2 t p) r2 rho (dedrho MP2 x2 p) d2); [rewrite R2; exact (dE1_rho_ok MP2 x2 OK2 G2 p)|exact D2]. }
  apply (is_derive_plus (fun s => l * E_1 MP1 (r1 s) p) (fun s => (1 - l) * E_1 MP2 (r2 s) p)).
  - exact (is_derive_scal _ _ l _ A1).
  - exact (is_derive_scal _ _ (1 - l) _ A2).
Qed.
Print Assumptions mixture_density_derivative_partial.

(** two stiffened gases, half of the mass each, at density and pressure 1 *)
Definition stiff (pinf : R) : params := mkparams STIFFENED_GAS 1 0 1 pinf 2 1 3 1 0 2 1 1 2 3 0 1 1 1 1 1 1.
Definition two_gases : par := mkpar (stiff 1) false false true false (fun _ => 0) (stiff 0) (-1) 0.
Definition half_state : vec := fun k => match k with 0%nat => 1 | 14%nat => 1 / 2 | _ => 0 end.
Example mixture_density_derivative_case : exists sm p x1 x2 r1 r2 d1 d2, let P := two_gases in let Q := half_state in let o := shipped in
  let rho := Q 0%nat in let l := Q (mV o) / rho in let MP1 := prm P in let MP2 := MP2 P in
  PMULTI P = true /\ sm Q = (p, x1, x2) /\ rho <> 0 /\
  eos_ok MP1 x1 /\ eos_ok MP2 x2 /\ Gamma_MG MP1 x1 <> 0 /\ Gamma_MG MP2 x2 <> 0 /\ cv MP1 <> 0 /\ cv MP2 <> 0 /\ Tref MP1 = 0 /\ Tref MP2 = 0 /\
  r1 rho = x1 /\ r2 rho = x2 /\ is_derive r1 rho d1 /\ is_derive r2 rho d2 /\ locally rho (equilibrium_curve MP1 MP2 l p r1 r2) /\
  l / (x1 * x1) * dTdrho MP2 x2 p + (1 - l) / (x2 * x2) * dTdrho MP1 x1 p <> 0.
Proof.
  exists (fun _ => (1, 3 / 2, 3 / 4)), 1, (3 / 2), (3 / 4), (fun s => 3 / 2 * s), (fun s => 3 / 4 * s), (3 / 2), (3 / 4).
  cbn. unfold eos_ok, Gamma_MG, equilibrium_curve, volumes_add, temperature_mg, dTdrho, dp_ref, dGamma_MG, p_ref, Gamma_MG. cbn.
  split; [reflexivity|]. split; [reflexivity|]. split; [lra|]. split; [lra|]. split; [lra|]. split; [lra|]. split; [lra|]. split; [lra|]. split; [lra|].
  split; [lra|]. split; [lra|]. split; [lra|]. split; [lra|]. split; [auto_derive; [exact I|ring]|]. split; [auto_derive; [exact I|ring]|]. split; [|lra].
  exists (mkposreal (1 / 2) ltac:(lra)). intros s Hs. unfold ball in Hs. cbn in Hs. unfold AbsRing_ball, abs, minus, plus, opp in Hs. cbn in Hs.
  apply Rabs_def2 in Hs. split; field; lra.
Qed.

(** With a reference temperature it is not the derivative: the partial densities move along the curve of equal temperatures, the code
    moves them as if the reference curve were flat (C47). Here the code returns -19/5 and the derivative is -7/2. *)
Definition warm (pinf T : R) : params := mkparams STIFFENED_GAS 1 T 1 pinf 2 1 3 1 0 2 1 1 2 3 0 1 1 1 1 1 1.
Definition warm_gases : par := mkpar (warm 1 1) false false true false (fun _ => 0) (warm 2 0) (-1) 0.
Theorem mixture_density_derivative_refuted : exists sm (p : R) (r1 r2 : R -> R) d1 d2, let P := warm_gases in let Q := half_state in let o := shipped in
  let rho := Q 0%nat in let l := Q (mV o) / rho in
  PMULTI P = true /\ sm Q = (p, r1 rho, r2 rho) /\ eos_ok (prm P) (r1 rho) /\ eos_ok (MP2 P) (r2 rho) /\
  is_derive r1 rho d1 /\ is_derive r2 rho d2 /\ locally rho (equilibrium_curve (prm P) (MP2 P) l p r1 r2) /\
  is_derive (fun s => mixture_energy (prm P) (MP2 P) l p (r1 s) (r2 s)) rho (- (7 / 2)) /\ dEdrho o P sm Q - dC_0drho (prm P) rho / 4 * devGsq (get_A Q) = - (19 / 5).
Proof.
  set (f := fun s : R => 3 / s - sqrt (9 / (s * s) - 5)). set (g := fun s : R => 3 * f s / (f s * f s + 2)).
  assert (F1 : f 1 = 1) by (unfold f; replace (9 / (1 * 1) - 5) with (2 * 2) by field; rewrite sqrt_square by lra; field).
  assert (G1 : g 1 = 1) by (unfold g; rewrite F1; field).
  assert (DF : is_derive f 1 (3 / 2)).
  { unfold f. auto_derive.
    - repeat split; lra.
    - replace (9 * / (1 * 1) + - (5)) with (2 * 2) by field. rewrite sqrt_square by lra. field. }
  assert (DG : is_derive g 1 (1 / 2)).
  { unfold g. assert (DF' := DF). clearbody f. auto_derive.
    - repeat split; try (exists (3 / 2); exact DF'). rewrite F1. lra.
    - replace (Derive (fun x : R => f x) 1) with (3 / 2) by (symmetry; exact (is_derive_unique _ _ _ DF')). rewrite F1. field. }
  exists (fun _ => (1, 1, 1)), 1, f, g, (3 / 2), (1 / 2). intros P Q o rho l. change rho with 1. replace l with (1 / 2) by (unfold l, rho, Q; cbn; field).
  rewrite F1, G1.
  split; [reflexivity|]. split; [reflexivity|]. split; [repeat split; cbn; lra|]. split; [repeat split; cbn; lra|]. split; [exact DF|]. split; [exact DG|]. split; [|split].
  - exists (mkposreal (1 / 10) ltac:(lra)). intros s Hs. unfold ball in Hs. cbn in Hs. unfold AbsRing_ball, abs, minus, plus, opp in Hs. cbn in Hs.
    apply Rabs_def2 in Hs. assert (S0 : 9 / 10 < s < 11 / 10) by lra. clear Hs.
    assert (S1 : 0 <= 9 / (s * s) - 5).
    { assert (0 < s * s) by nra. apply Rmult_le_reg_r with (s * s); [assumption|]. rewrite Rmult_0_l. replace ((9 / (s * s) - 5) * (s * s)) with (9 - 5 * (s * s)) by (field; lra). nra. }
    assert (Q2 := sqrt_sqrt _ S1).
    assert (QU : f s * f s - 6 / s * f s + 5 = 0).
    { unfold f. transitivity (sqrt (9 / (s * s) - 5) * sqrt (9 / (s * s) - 5) - (9 / (s * s) - 5)); [field; lra|]. rewrite Q2. ring. }
    assert (F0 : f s <> 0) by (intro Z; rewrite Z in QU; lra).
    assert (H2 : 0 < f s * f s + 2) by nra.
    assert (FR : f s * f s = 6 / s * f s - 5) by lra.
    unfold equilibrium_curve, volumes_add, temperature_mg, phi, p_ref, Gamma_MG. cbn [kind P warm_gases prm MP2 warm gam rho0 Tref cv pINF].
    split.
    + assert (I : 1 / s = (f s * f s + 5) / (6 * f s)).
      { replace (f s * f s + 5) with (6 / s * f s) by lra. field. split; [lra|exact F0]. }
      unfold g. rewrite I. field. repeat split; try lra; exact F0.
    + assert (FP : 0 < f s).
      { destruct (Rlt_le_dec 0 (f s)) as [L|L]; [exact L|]. exfalso. assert (0 < 6 / s) by (apply Rdiv_lt_0_compat; lra).
        assert (0 <= f s * f s) by nra. nra. }
      unfold PhysModel.phi at 1. cbn [kind warm gam rho0]. replace (f s / 1) with (f s) by field. replace (2 - 1) with 1 by ring. rewrite Rpower_1 by exact FP. unfold g. field. repeat split; try lra; try exact F0.
  - unfold mixture_energy, E_1, e_ref, p_ref, Gamma_MG. cbn [kind P warm_gases prm MP2 warm gam rho0 Tref cv pINF].
    clearbody f g. auto_derive.
    + rewrite F1, G1. repeat split; try lra; try (exists (3 / 2); exact DF); try (exists (1 / 2); exact DG).
    + replace (Derive (fun x : R => f x) 1) with (3 / 2) by (symmetry; exact (is_derive_unique _ _ _ DF)). replace (Derive (fun x : R => g x) 1) with (1 / 2) by (symmetry; exact (is_derive_unique _ _ _ DG)).
      rewrite F1, G1. field.
  - unfold dEdrho. cbn [PMULTI P warm_gases]. change (Q 0%nat) with 1. replace (Q (mV o) / 1) with (1 / 2) by (unfold Q; cbn; field).
    unfold dTdrho, dp_ref, dGamma_MG, dedrho, de_ref, p_ref, Gamma_MG, dp_ref, dGamma_MG. cbn -[dC_0drho devGsq get_A]. set (z := dC_0drho _ _ / 4 * _). field.
Qed.
Print Assumptions mixture_density_derivative_refuted.

(** dEdp is the derivative of the energy of the mixture with respect to the pressure with the partial densities frozen.
    Missing: their change, which equality of the temperatures forces. *)
Theorem mixture_pressure_derivative_partial o P sm Q (p x1 x2 : R) : PMULTI P = true ->
  let l := Q (mV o) / Q 0%nat in sm Q = (p, x1, x2) ->
  eos_ok (prm P) x1 -> eos_ok (MP2 P) x2 -> Gamma_MG (prm P) x1 <> 0 -> Gamma_MG (MP2 P) x2 <> 0 ->
  is_derive (fun t : R => mixture_energy (prm P) (MP2 P) l t x1 x2) p (dEdp o P sm Q).
Proof.
  intros HM l ES OK1 OK2 G1 G2. unfold dEdp. rewrite HM, ES. fold l. unfold mixture_energy.
  apply (is_derive_plus (fun t => l * E_1 (prm P) x1 t) (fun t => (1 - l) * E_1 (MP2 P) x2 t)).
  - exact (is_derive_scal _ _ l _ (dE1_p_ok (prm P) x1 OK1 G1 p)).
  - exact (is_derive_scal _ _ (1 - l) _ (dE1_p_ok (MP2 P) x2 OK2 G2 p)).
Qed.
Print Assumptions mixture_pressure_derivative_partial.
(** Along the states of equilibrium at constant density it is not the derivative: the partial densities move with the
    pressure. Here the code returns 1 and the derivative is 11/9. *)
Theorem mixture_pressure_derivative_refuted : exists sm (p : R) (r1 r2 : R -> R), let P := two_gases in let Q := half_state in let o := shipped in
  let rho := Q 0%nat in let l := Q (mV o) / rho in
  PMULTI P = true /\ sm Q = (p, r1 p, r2 p) /\ eos_ok (prm P) (r1 p) /\ eos_ok (MP2 P) (r2 p) /\ Gamma_MG (prm P) (r1 p) <> 0 /\ Gamma_MG (MP2 P) (r2 p) <> 0 /\
  locally p (fun t => volumes_add rho l (r1 t) (r2 t) /\ temperature_mg (prm P) (r1 t) t = temperature_mg (MP2 P) (r2 t) t) /\
  is_derive (fun t => mixture_energy (prm P) (MP2 P) l t (r1 t) (r2 t)) p (11 / 9) /\ dEdp o P sm Q = 1.
Proof.
  exists (fun _ => (1, 3 / 2, 3 / 4)), 1, (fun t => (2 * t + 1) / (2 * t)), (fun t => (2 * t + 1) / (2 * (t + 1))).
  cbn. unfold eos_ok, Gamma_MG, volumes_add, temperature_mg, p_ref, mixture_energy, E_1, e_ref, Gamma_MG, dEdp, dedp, p_ref. cbn.
  split; [reflexivity|]. split; [f_equal; [f_equal|]; field|]. split; [lra|]. split; [lra|]. split; [lra|]. split; [lra|]. split; [|split].
  - exists (mkposreal (1 / 2) ltac:(lra)). intros s Hs. unfold ball in Hs. cbn in Hs. unfold AbsRing_ball, abs, minus, plus, opp in Hs. cbn in Hs.
    apply Rabs_def2 in Hs. split; field; lra.
  - auto_derive; [repeat split; lra|]. field.
  - unfold Gamma_MG. cbn. field.
Qed.
Print Assumptions mixture_pressure_derivative_refuted.
