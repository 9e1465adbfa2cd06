(** C96: the relaxation of strain and heat flux does not depend on the frame or on the decomposition the library returns, as long as the principal stretches differ. *)
From Coq Require Import Reals ZArith Lra Psatz Lia List FunctionalExtensionality.
From Verif Require Import Base Options Mat3 PhysModel PhysInst PhysSpec PhysProof2 RiemannProof UtilsModel UtilsProof RelaxModel RelaxSpec RelaxProof RelaxProof2 RelaxProof4 RelaxProps FrameSpec FrameProof.
Open Scope R_scope.

Lemma get_A_body P q dt : get_A (body_forces P q dt) = get_A q.
Proof. apply functional_extensionality. intros i. apply functional_extensionality. intros j. unfold get_A, body_forces. apply setseg_out. lia. Qed.
Lemma body_turned o P X Y q q' dt : veq (mvec Y (body P)) (body P) -> turned o X Y q q' -> turned o X Y (body_forces P q dt) (body_forces P q' dt).
Proof.
  intros HB [T0 T1 T2 T3 T4 T5]. split.
  - unfold body_forces. rewrite !setseg_out by lia. exact T0.
  - unfold body_forces. rewrite !setseg_out by lia. exact T1.
  - intros i Hi. specialize (T2 i Hi). unfold get_rhov, mvec, sum3, body_forces in *. rewrite !setseg_in by lia. replace (2 + i - 2)%nat with i by lia. cbn [Nat.add Nat.sub] in *. rewrite T2.
    rewrite <- (HB i Hi). unfold mvec, sum3. ring.
  - rewrite !get_A_body. exact T3.
  - intros HT. specialize (T4 HT). intros i Hi. specialize (T4 i Hi). unfold get_rhoJ, mvec, sum3, body_forces in *. rewrite !setseg_out by lia. exact T4.
  - intros k Hk. unfold body_forces. rewrite !setseg_out by lia. apply T5, Hk.
Qed.
Lemma put_turned o X Y q q' B B' : turned o X Y q q' -> meq B' (mmul (mmul X B) (mtr Y)) -> turned o X Y (put_A q B) (put_A q' B').
Proof.
  intros [T0 T1 T2 T3 T4 T5] HB. split.
  - rewrite !put_A_out by lia. exact T0.
  - rewrite !put_A_out by lia. exact T1.
  - intros i Hi. specialize (T2 i Hi). unfold get_rhov, mvec, sum3 in *. rewrite !put_A_out by lia. exact T2.
  - rewrite !put_A_get. exact HB.
  - intros HT. specialize (T4 HT). intros i Hi. specialize (T4 i Hi). unfold get_rhoJ, mvec, sum3 in *. rewrite !put_A_out by lia. exact T4.
  - intros k Hk. rewrite !put_A_out by lia. apply T5, Hk.
Qed.
Lemma dot_turned Y u u' : orthogonal Y -> veq u' (mvec Y u) -> dot3 u' u' = dot3 u u.
Proof.
  intros [H _] E. unfold dot3, sum3. rewrite !E by lia. unfold mvec, sum3.
  assert (N : forall i j, (i < 3)%nat -> (j < 3)%nat -> Y 0%nat i * Y 0%nat j + Y 1%nat i * Y 1%nat j + Y 2%nat i * Y 2%nat j = id3 i j) by (intros i j Hi Hj; rewrite <- (H i j Hi Hj); reflexivity).
  transitivity (sum3 (fun i => sum3 (fun j => (Y 0%nat i * Y 0%nat j + Y 1%nat i * Y 1%nat j + Y 2%nat i * Y 2%nat j) * (u i * u j)))); [unfold sum3; ring|].
  unfold sum3. rewrite !N by lia. unfold id3, delta. cbn [Nat.eqb]. ring.
Qed.
Lemma devGsq_turned X Y A A' : orthogonal X -> orthogonal Y -> meq A' (mmul (mmul X A) (mtr Y)) -> devGsq A' = devGsq A.
Proof. intros [HX _] [HY _] E. rewrite (devGsq_meq _ _ E), devGsq_right, devGsq_left; [reflexivity|exact HX|]. rewrite mtr_mtr. exact HY. Qed.
Lemma thermal_turned o P X Y q q' dt : THERMAL o = true -> orthogonal X -> orthogonal Y -> turned o X Y q q' -> turned_result o X Y (relax_thermal P q dt) (relax_thermal P q' dt).
Proof.
  intros HT HX HY [T0 T1 T2 T3 T4 T5]. specialize (T4 HT). unfold relax_thermal. cbv zeta.
  assert (EE : E_3 (fun i => get_rhov q' i / q' 0%nat) = E_3 (fun i => get_rhov q i / q 0%nat)).
  { unfold E_3. f_equal. apply (dot_turned Y); [exact HY|]. intros i Hi. rewrite T0, (T2 i Hi). unfold mvec, sum3, Rdiv. ring. }
  rewrite EE, T0, T1. unfold E_2A. rewrite (devGsq_turned X Y _ _ HX HY T3), (dot_turned Y _ _ HY T4).
  destruct (odiv (2 * ca2 (prm P)) _) as [k|]; [|exact I]. cbn [obind]. destruct (odiv _ _) as [h|]; [|exact I]. cbn [obind]. destruct (osqrt _) as [w|]; [|exact I]. cbn [obind]. destruct (odiv _ _) as [z|]; [|exact I]. cbn [obind].
  cbn [turned_result]. split.
  - rewrite !setseg_out by lia. exact T0.
  - rewrite !setseg_out by lia. exact T1.
  - intros i Hi. specialize (T2 i Hi). unfold get_rhov, mvec, sum3 in *. rewrite !setseg_out by lia. exact T2.
  - intros i j Hi Hj. specialize (T3 i j Hi Hj). unfold get_A, mmul, mtr, sum3 in *. rewrite !setseg_out by lia. exact T3.
  - intros _ i Hi. specialize (T4 i Hi). unfold get_rhoJ, mvec, sum3 in *. rewrite !setseg_in by lia. replace (14 + i - 14)%nat with i by lia. cbn [Nat.add Nat.sub] in *. rewrite T4. ring.
  - intros k0 Hk. rewrite HT in Hk. rewrite !setseg_out by lia. apply T5. rewrite HT. exact Hk.
Qed.
Lemma relax_A_turned P svd svd' X Y A A' dt : orthogonal X -> orthogonal Y -> meq A' (mmul (mmul X A) (mtr Y)) -> svd_of A (svd A) -> svd_of A' (svd' A') ->
  (let s := singular_values (svd A) in s 2%nat < s 1%nat < s 0%nat \/ s 2%nat = s 0%nat) ->
  match relax_A P svd A dt, relax_A P svd' A' dt with Some B, Some B' => meq B' (mmul (mmul X B) (mtr Y)) | None, None => True | _, _ => False end.
Proof.
  intros HX HY E S S' HD. destruct (svd A) as [[U s] W] eqn:ES. destruct (svd' A') as [[U' s'] W'] eqn:ES'. cbn [singular_values] in HD.
  pose proof (svd_turned A U s W X Y HX HY S) as ST. pose proof (relax_by_stretches P svd A dt U s W ES) as Q. pose proof (relax_by_stretches P svd' A' dt U' s' W' ES') as Q'.
  assert (V : forall i, (i < 3)%nat -> s' i = s i) by (apply (values_unique _ _ _ _ _ _ _ _ (meq_sym _ _ E) ST S')).
  rewrite (new_stretches_ext P s s' dt V) in Q'. destruct HD as [HD|HD].
  - destruct (new_stretches P s dt) as [[f|]|].
    + destruct Q as (N & B & -> & EB). destruct Q' as (N' & B' & -> & EB'). rewrite EB', EB, <- assemble_turned. symmetry. apply (assembled_same _ _ _ _ _ _ _ _ (meq_sym _ _ E) ST S' HD). exact N.
    + rewrite Q, Q'. exact E.
    + rewrite Q, Q'. exact I.
  - assert (O : s 2%nat <= s 1%nat <= s 0%nat) by apply S. rewrite (isotropic_kept P s dt) in Q, Q' by lra. rewrite Q, Q'. exact E.
Qed.

(** C96. The step gives the turned result in the turned frame, whatever decomposition is returned in either frame, if the principal stretches are different, or all equal.
    Missing: two equal stretches and a different one, refuted below. A body force has to be the same in both frames. *)
Theorem relaxation_frame_partial o P svd svd' X Y q q' dt : orthogonal X -> orthogonal Y -> veq (mvec Y (body P)) (body P) ->
  svd_of (get_A q) (svd (get_A q)) -> svd_of (get_A q') (svd' (get_A q')) ->
  (let s := singular_values (svd (get_A q)) in s 2%nat < s 1%nat < s 0%nat \/ s 2%nat = s 0%nat) ->
  turned o X Y q q' -> turned_result o X Y (ode_stepper_analytic o P svd q dt) (ode_stepper_analytic o P svd' q' dt).
Proof.
  intros HX HY HB S S' HD HT. unfold ode_stepper_analytic. cbv zeta. pose proof (body_turned o P X Y q q' dt HB HT) as HT1.
  assert (R : turned_result o X Y (if VISCOUS o then relax_distortion P svd (body_forces P q dt) dt else Some (body_forces P q dt)) (if VISCOUS o then relax_distortion P svd' (body_forces P q' dt) dt else Some (body_forces P q' dt))).
  { destruct (VISCOUS o); [|exact HT1]. unfold relax_distortion. rewrite !get_A_body.
    pose proof (relax_A_turned P svd svd' X Y (get_A q) (get_A q') dt HX HY (tu_distortion _ _ _ _ _ HT) S S' HD) as Q.
    destruct (relax_A P svd (get_A q) dt), (relax_A P svd' (get_A q') dt); try contradiction; cbn [obind turned_result]; [|exact I]. apply put_turned; assumption. }
  destruct (if VISCOUS o then _ else _) as [p|], (if VISCOUS o then relax_distortion P svd' _ dt else _) as [p'|]; try contradiction; cbn [obind]; [|exact I].
  destruct (THERMAL o) eqn:ET; [apply thermal_turned; assumption|exact R].
Qed.

(** ** Two equal stretches *)
(** the quarter turn about the first axis *)
Definition quarter : mat3 := fun i j => match i, j with O, O => 1 | S O, S (S O) => -1 | S (S O), S O => 1 | _, _ => 0 end.
Lemma quarter_orthogonal : orthogonal quarter.
Proof. split; intros i j Hi Hj; idx3 i; idx3 j; m3; cbn; ring. Qed.
(** a matrix unchanged by the quarter turn whose gram matrix has three different eigenvalues: there is none *)
Lemma quarter_gram B U f W : orthogonal U -> orthogonal W -> meq B (assemble U f W) -> meq B (mmul (mmul quarter B) (mtr quarter)) ->
  f 0%nat * f 0%nat <> f 1%nat * f 1%nat -> f 1%nat * f 1%nat <> f 2%nat * f 2%nat -> f 0%nat * f 0%nat <> f 2%nat * f 2%nat -> False.
Proof.
  intros HU HW EB EQ N01 N12 N02. destruct quarter_orthogonal as [QQ _].
  assert (GQ : meq (gram B) (mmul (mmul quarter (gram B)) (mtr quarter))).
  { unfold gram. rewrite EQ at 1 2. rewrite !mtr_mmul, mtr_mtr, !mmul_assoc. apply mmul_meq; [reflexivity|]. apply mmul_meq; [reflexivity|]. rewrite <- (mmul_assoc (mtr quarter) quarter), QQ, mmul_id_l. reflexivity. }
  assert (GS : forall i j, gram B i j = gram B j i) by (intros i j; unfold gram; m3; ring).
  set (G := gram B) in *.
  assert (E01 : G 0%nat 1%nat = - G 0%nat 2%nat) by (rewrite (GQ 0%nat 1%nat) by lia; unfold quarter; m3; ring).
  assert (E02 : G 0%nat 2%nat = G 0%nat 1%nat) by (rewrite (GQ 0%nat 2%nat) by lia; unfold quarter; m3; ring).
  assert (E11 : G 1%nat 1%nat = G 2%nat 2%nat) by (rewrite (GQ 1%nat 1%nat) by lia; unfold quarter; m3; ring).
  assert (E12 : G 1%nat 2%nat = - G 2%nat 1%nat) by (rewrite (GQ 1%nat 2%nat) by lia; unfold quarter; m3; ring).
  pose proof (GS 1%nat 2%nat) as S12. pose proof (GS 0%nat 1%nat) as S01. pose proof (GS 0%nat 2%nat) as S02.
  assert (GW : meq (mmul G W) (mmul W (diag (fun i => f i * f i)))).
  { unfold G, gram. rewrite EB. rewrite (gram_assemble U f W HU). rewrite mmul_assoc, (proj1 HW), mmul_id_r. reflexivity. }
  assert (V : forall j, (j < 3)%nat -> (G 0%nat 0%nat - f j * f j) * W 0%nat j = 0 /\ (G 1%nat 1%nat - f j * f j) * W 1%nat j = 0 /\ (G 1%nat 1%nat - f j * f j) * W 2%nat j = 0).
  { intros j Hj. pose proof (GW 0%nat j ltac:(lia) Hj) as A0. pose proof (GW 1%nat j ltac:(lia) Hj) as A1. pose proof (GW 2%nat j ltac:(lia) Hj) as A2. rewrite diag_right in A0, A1, A2 by exact Hj. unfold mmul, sum3 in A0, A1, A2.
    assert (Z1 : G 0%nat 1%nat = 0) by lra. assert (Z2 : G 0%nat 2%nat = 0) by lra. assert (Z3 : G 1%nat 2%nat = 0) by lra. rewrite <- S01, <- S02, <- S12, <- E11, Z1, Z2, Z3 in *. repeat split; lra. }
  assert (X : forall j, (j < 3)%nat -> f j * f j = G 0%nat 0%nat \/ f j * f j = G 1%nat 1%nat).
  { intros j Hj. destruct (orthogonal_column W j HW Hj) as (i & Hi & N). destruct (V j Hj) as (V0 & V1 & V2). idx3 i.
    - left. apply Rmult_integral in V0. lra.
    - right. apply Rmult_integral in V1. lra.
    - right. apply Rmult_integral in V2. lra. }
  destruct (X 0%nat ltac:(lia)), (X 1%nat ltac:(lia)), (X 2%nat ltac:(lia)); congruence.
Qed.

(** A moderate uniaxial extension (stretches squared 9/4, 2/3, 2/3), the same after a quarter turn about its axis. Whatever decomposition the library returns, the relaxed distortion is not
    the same after the quarter turn: the axis of symmetry is lost, and the library's arbitrary choice of directions decides where the new principal axes lie. *)
Theorem relaxation_frame_refuted : exists P A Q dt, relaxing P /\ POWER_LAW P = false /\ orthogonal Q /\ det3 A = 1 /\ 0 < dt /\ meq A (mmul (mmul Q A) (mtr Q)) /\
  forall svd, svd_of A (svd A) -> exists B, relax_A P svd A dt = Some B /\ ~ meq B (mmul (mmul Q B) (mtr Q)).
Proof.
  assert (Q1 := sqrt_sqrt (2 / 3) ltac:(lra)). assert (S1 := sqrt_pos (2 / 3)). set (b := sqrt (2 / 3)) in *.
  set (q := diag_state (3 / 2) b b). set (P := relax_params false). assert (LB : b <= 1) by (destruct (Rle_dec b 1); [assumption|nra]).
  assert (HS0 : svd_of (get_A q) (id3, three (3 / 2) b b, id3)) by (apply diag_svd; lra).
  assert (HD : det3 (get_A q) = 1) by (unfold q; rewrite diag_det; nra). assert (HD' : det3 (get_A q) <> 0) by lra.
  assert (L2 : 0 < ln 2) by (rewrite <- ln_1; apply ln_increasing; lra).
  exists P, (get_A q), quarter, (ln 2 / 3). split; [apply relax_params_ok|]. split; [reflexivity|]. split; [apply quarter_orthogonal|]. split; [exact HD|]. split; [lra|]. split.
  { assert (EA : meq (get_A q) (diag (three (3 / 2) b b))) by apply put_A_get. rewrite EA. intros i j Hi Hj. unfold diag, quarter, three. idx3 i; idx3 j; m3; ring. }
  intros svd HS. destruct (svd (get_A q)) as [[U s] W] eqn:ES.
  assert (SV : forall i, (i < 3)%nat -> s i = three (3 / 2) b b i) by (apply (values_unique _ _ _ _ _ _ _ _ (meq_refl _) HS0 HS)).
  assert (PS : s 0%nat * s 1%nat * s 2%nat = 1) by (rewrite !SV by lia; cbn [three]; nra).
  set (x := fun i => s i * s i). assert (HX : scaled s x) by (exists 1; split; [rewrite PS; ring|intros i Hi; unfold x; ring]).
  assert (MX : mean x = 43 / 36) by (unfold mean, sum3, x; rewrite !SV by lia; cbn [three]; rewrite Q1; field). assert (SX : spread x = 361 / 216) by (unfold spread, sum3; rewrite MX; unfold x; rewrite !SV by lia; cbn [three]; rewrite Q1; field).
  assert (EP : / 10 ^ 12 < / 100) by (apply Rinv_lt_contravar; [apply Rmult_lt_0_compat; [lra|apply pow_lt; lra]|]; replace 100 with (10 ^ 2) at 1 by ring; apply Rlt_pow; [lra|lia]).
  assert (RA := relax_A_eq P svd (get_A q) U W s x ES HS HD' HX (ln 2 / 3)). destruct (Rle_dec (/ 10 ^ 12) (spread x)) as [_|N]; [|exfalso; apply N; rewrite SX; lra].
  assert (CB : cbrt (s 0%nat * s 1%nat * s 2%nat) = 1) by (rewrite PS; replace 1 with (1 * 1 * 1) at 1 by ring; apply cbrt_of_cube).
  rewrite (time_newton P) in RA; [|cbn; lra|reflexivity]. cbn [obind] in RA. rewrite CB in RA.
  replace (rho0 (prm P) * b02 (prm P) * Rpower 1 7 / (3 * mu (prm P)) * (ln 2 / 3)) with (ln 2 / 3) in RA by (unfold Rpower; rewrite ln_1, Rmult_0_r, exp_0; cbn; field).
  assert (E3 : exp (- ln 2) = / 2) by (rewrite exp_Ropp, exp_ln by lra; reflexivity).
  assert (E6 : exp (- 6 * (ln 2 / 3)) = / 4) by (replace (- 6 * (ln 2 / 3)) with (- ln 2 + - ln 2) by field; rewrite exp_plus, E3; field).
  assert (E9 : exp (- 9 * (ln 2 / 3)) = / 8) by (replace (- 9 * (ln 2 / 3)) with (- ln 2 + - ln 2 + - ln 2) by field; rewrite !exp_plus, E3; field).
  unfold measure_m, measure_u, measure_a, measure_b in RA. rewrite E6, E9, MX, SX in RA. rewrite (pos_id (6 * _ * _ - _)) in RA by lra.
  set (m := 1 + _ - _) in RA. set (u := 6 * _ * _ - _) in RA. assert (MV : m = 5327 / 5184) by (unfold m; field). assert (UV : u = 395 / 1728) by (unfold u; field). clearbody m u. subst m u.
  assert (FB : 1430 / 1000 <= first_stretch (5327 / 5184) (395 / 1728) <= 1432 / 1000).
  { unfold first_stretch. cbv zeta. set (D := -2 * (5327 / 5184) * (5327 / 5184) * (5327 / 5184) + 5327 / 5184 * (395 / 1728) + 2). assert (DV : 647 / 10000 < D < 648 / 10000) by (unfold D; lra).
    destruct (Rlt_dec (Rabs D) (/ 10 ^ 12)) as [L|_]; [exfalso; rewrite Rabs_pos_eq in L by lra; lra|].
    destruct (Req_EM_T (pos (6 * (395 / 1728) * (395 / 1728) * (395 / 1728) - 81 * D * D)) 0) as [_|N]; [|exfalso; apply N, pos_neg; nra].
    pose proof (cbrt_cube (54 * D)) as TC. assert (TP : 0 < cbrt (54 * D)) by (apply cbrt_pos; lra). set (T := cbrt (54 * D)) in *.
    assert (T1 : T < 1519 / 1000) by (destruct (Rlt_dec T (1519 / 1000)); [assumption|]; exfalso; assert (1519 / 1000 * (1519 / 1000) * (1519 / 1000) <= T * T * T) by (assert (1519 / 1000 * (1519 / 1000) <= T * T) by nra; nra); lra).
    assert (T2 : 1517 / 1000 < T) by (destruct (Rlt_dec (1517 / 1000) T); [assumption|]; exfalso; assert (T * T * T <= 1517 / 1000 * (1517 / 1000) * (1517 / 1000)) by (assert (T * T <= 1517 / 1000 * (1517 / 1000)) by nra; nra); lra).
    assert (I1 : / T <= / (1517 / 1000)) by (apply Rinv_le_contravar; lra). assert (I2 : / (1519 / 1000) <= / T) by (apply Rinv_le_contravar; lra). unfold Rdiv. set (iT := / T) in *.
    replace (/ (1517 / 1000)) with (1000 / 1517) in I1 by field. replace (/ (1519 / 1000)) with (1000 / 1519) in I2 by field. lra. }
  unfold stretches in RA. set (f := first_stretch (5327 / 5184) (395 / 1728)) in *. cbv zeta in RA. rewrite odiv_some in RA by lra. cbn [obind] in RA.
  assert (PZ : pos (f * (3 * (5327 / 5184) - f) * (3 * (5327 / 5184) - f) - 4) = 0).
  { apply pos_neg. assert (0 <= 3 * (5327 / 5184) - f <= 1653 / 1000) by lra. set (z := 3 * (5327 / 5184) - f) in *. assert (z * z <= 1653 / 1000 * (1653 / 1000)) by nra. assert (f * z * z = f * (z * z)) by ring. nra. }
  rewrite PZ in RA. replace (0 / f) with 0 in RA by (unfold Rdiv; ring). rewrite osqrt_some in RA by lra. cbn [obind] in RA. rewrite sqrt_0, Rplus_0_l in RA.
  set (x2 := / 2 * (3 * (5327 / 5184) - f)) in *. assert (X2 : 825 / 1000 <= x2 <= 827 / 1000) by (unfold x2; lra).
  assert (XP : 117 / 100 <= f * x2 <= 119 / 100) by nra. rewrite odiv_some in RA by lra. cbn [obind] in RA.
  set (x3 := 1 / (f * x2)) in *. assert (X3 : 840 / 1000 <= x3 <= 856 / 1000).
  { assert (x3 * (f * x2) = 1) by (unfold x3; field; split; lra). split; nra. }
  destruct (rebuild_ok U W 1 f x2 x3 ltac:(lra) ltac:(lra) ltac:(lra)) as [B [y [EB [EY [YP [YD [YE M]]]]]]]. rewrite EB in RA. exists B. split; [exact RA|]. intros C.
  assert (SQ : forall i, (i < 3)%nat -> 1 * sqrt (y i) * (1 * sqrt (y i)) = y i) by (intros i Hi; replace (1 * sqrt (y i) * (1 * sqrt (y i))) with (sqrt (y i) * sqrt (y i)) by ring; apply sqrt_sqrt, Rlt_le, YP; exact Hi).
  assert (Y : y 0%nat = f /\ y 1%nat = x3 /\ y 2%nat = x2).
  { rewrite EY. unfold sort3. assert (R1 : Rmax x2 x3 = x3) by (apply Rmax_right; lra). assert (R2 : Rmin x2 x3 = x2) by (apply Rmin_left; lra). rewrite R1, R2. assert (R3 : Rmax f x3 = f) by (apply Rmax_left; lra). assert (R4 : Rmin f x2 = x2) by (apply Rmin_right; lra). rewrite R3, R4. repeat split; ring. }
  destruct Y as (Y0 & Y1 & Y2). apply (quarter_gram B U (fun i => 1 * sqrt (y i)) W (proj1 HS) (proj1 (proj2 HS)) M C); rewrite !SQ by lia; lra.
Qed.

(** ** A case that meets the hypotheses: stretches squared 2, 1, 1/2, a quarter turn of the frame *)
Example relaxation_frame_case : exists P svd q q' s s', relaxing P /\ orthogonal quarter /\ veq (mvec quarter (body P)) (body P) /\ svd_of (get_A q) (svd (get_A q)) /\ svd_of (get_A q') (svd (get_A q')) /\
  singular_values (svd (get_A q)) 2%nat < singular_values (svd (get_A q)) 1%nat < singular_values (svd (get_A q)) 0%nat /\ turned shipped quarter quarter q q' /\ get_A q 1%nat 1%nat <> get_A q' 1%nat 1%nat /\
  ode_stepper_analytic shipped P svd q 1 = Some s /\ ode_stepper_analytic shipped P svd q' 1 = Some s' /\ turned shipped quarter quarter s s'.
Proof.
  assert (Q2 := sqrt_sqrt 2 ltac:(lra)). assert (Q1 := sqrt_sqrt (/ 2) ltac:(lra)).
  assert (P3 : sqrt 2 * 1 * sqrt (/ 2) = 1) by (rewrite Rmult_1_r, <- sqrt_mult by lra; replace (2 * / 2) with 1 by field; apply sqrt_1).
  assert (O1 : sqrt (/ 2) < 1) by (rewrite <- sqrt_1; apply sqrt_lt_1; lra). assert (O2 : 1 < sqrt 2) by (rewrite <- sqrt_1 at 1; apply sqrt_lt_1; lra). assert (S1 := sqrt_pos (/ 2)).
  set (a := sqrt 2) in *. set (c := sqrt (/ 2)) in *.
  set (q := diag_state a 1 c). set (P := relax_params false). set (q' := put_A (fun k => if Nat.eqb k 3 then -1 else 1) (diag (three a c 1))).
  set (svd := fun A : mat3 => if Req_EM_T (A 1%nat 1%nat) 1 then (id3, three a 1 c, id3) else (quarter, three a 1 c, quarter)).
  assert (EA : meq (get_A q) (diag (three a 1 c))) by apply put_A_get. assert (EA' : meq (get_A q') (diag (three a c 1))) by apply put_A_get.
  assert (V : svd (get_A q) = (id3, three a 1 c, id3)) by (unfold svd; destruct (Req_EM_T _ 1) as [|N]; [reflexivity|]; exfalso; apply N; rewrite EA by lia; reflexivity).
  assert (V' : svd (get_A q') = (quarter, three a 1 c, quarter)) by (unfold svd; destruct (Req_EM_T _ 1) as [N|]; [|reflexivity]; exfalso; rewrite EA' in N by lia; unfold diag, three in N; cbn in N; lra).
  assert (HS : svd_of (get_A q) (id3, three a 1 c, id3)) by (apply diag_svd; lra).
  assert (HS' : svd_of (get_A q') (quarter, three a 1 c, quarter)).
  { split; [apply quarter_orthogonal|]. split; [apply quarter_orthogonal|]. split; [|split; [split; cbn; lra|cbn; lra]]. rewrite EA'. intros i j Hi Hj. unfold assemble, diag, quarter, three. idx3 i; idx3 j; m3; ring. }
  assert (HD : det3 (get_A q) = 1) by (unfold q; rewrite diag_det; exact P3). assert (HD' : det3 (get_A q) <> 0) by lra.
  assert (HT : turned shipped quarter quarter q q').
  { split.
    - unfold q, q', diag_state. rewrite !put_A_out by lia. reflexivity.
    - unfold q, q', diag_state. rewrite !put_A_out by lia. reflexivity.
    - intros i Hi. unfold q, q', diag_state, get_rhov, mvec, sum3. rewrite !put_A_out by lia. unfold quarter. idx3 i; cbn; ring.
    - rewrite EA, EA'. intros i j Hi Hj. unfold diag, quarter, three. idx3 i; idx3 j; m3; ring.
    - discriminate.
    - intros k Hk. cbn in Hk. unfold q, q', diag_state. rewrite !put_A_out by lia. destruct (Nat.eqb_spec k 3); [lia|reflexivity]. }
  assert (HB : veq (mvec quarter (body P)) (body P)) by (intros i Hi; unfold mvec, sum3, P; cbn; ring).
  assert (HDs : three a 1 c 2%nat < three a 1 c 1%nat < three a 1 c 0%nat) by (cbn; lra).
  pose proof (relaxation_frame_partial shipped P svd svd quarter quarter q q' 1 quarter_orthogonal quarter_orthogonal HB ltac:(rewrite V; exact HS) ltac:(rewrite V'; exact HS') ltac:(rewrite V; left; exact HDs) HT) as R.
  set (x := three (a * a) (1 * 1) (c * c)). assert (HX : scaled (three a 1 c) x) by (apply diag_scaled; exact P3).
  assert (MX : mean x = 7 / 6) by (unfold mean, sum3, x; cbn; rewrite Q2, Q1; field). assert (SX : spread x = 7 / 6) by (unfold spread, sum3; rewrite MX; unfold x; cbn; rewrite Q2, Q1; field).
  assert (HM : moderate x) by (unfold moderate; rewrite MX, SX; lra).
  destruct (relaxation_keeps_partial P svd (body_forces P q 1) 1 id3 (three a 1 c) id3 x) as (s & s1 & E & _); try (rewrite get_A_body; assumption); try assumption; try lra; try discriminate; [apply relax_params_ok|].
  unfold ode_stepper_analytic in R. cbn [VISCOUS THERMAL shipped] in R. rewrite E in R. cbn [obind] in R. destruct (relax_distortion P svd (body_forces P q' 1) 1) as [s'|] eqn:E'; [|contradiction]. cbn [obind turned_result] in R.
  exists P, svd, q, q', s, s'. split; [apply relax_params_ok|]. split; [apply quarter_orthogonal|]. split; [exact HB|]. split; [rewrite V; exact HS|]. split; [rewrite V'; exact HS'|]. split; [rewrite V; exact HDs|]. split; [exact HT|].
  split; [rewrite EA, EA' by lia; unfold diag; cbn; lra|]. unfold ode_stepper_analytic. cbn [VISCOUS THERMAL shipped]. rewrite E, E'. cbn [obind]. auto.
Qed.
Print Assumptions relaxation_frame_partial.
Print Assumptions relaxation_frame_refuted.
