(** Lemmas about relaxation/analytic.cpp: the range of the measures, the time, the step of length zero. *)
From Coq Require Import Reals ZArith Lra Psatz Lia List.
From Verif Require Import Base Options Mat3 PhysModel PhysInst PhysSpec UtilsModel UtilsProof RelaxModel RelaxSpec RelaxProof.
Open Scope R_scope.

(** ** the evolved measures stay where the stretches are positive *)
Lemma measures_range m0 u0 tau : 0 <= u0 -> u0 <= 9 * (m0 - 1) -> 0 <= tau ->
  1 <= measure_m m0 u0 tau /\ 0 <= measure_u m0 u0 tau <= 9 * (measure_m m0 u0 tau - 1).
Proof.
  intros H0 H1 Ht. unfold measure_m, measure_u. set (a := measure_a m0 u0). set (b := measure_b m0 u0).
  assert (E9 : exp (- 9 * tau) = exp (- 6 * tau) * exp (- 3 * tau)) by (rewrite <- exp_plus; f_equal; lra). rewrite E9.
  pose proof (exp_pos (- 6 * tau)) as P6. pose proof (exp_pos (- 3 * tau)) as P3. set (e6 := exp (- 6 * tau)) in *. set (e3 := exp (- 3 * tau)) in *.
  assert (L3 : e3 <= 1) by (unfold e3; rewrite <- exp_0; destruct (Req_dec tau 0) as [->|]; [right; f_equal; lra|left; apply exp_increasing; lra]).
  assert (A : 0 <= a) by (unfold a, measure_a; lra). assert (AB : a - b = m0 - 1) by (unfold a, b, measure_a, measure_b; lra).
  assert (B : - (m0 - 1) <= b) by (unfold b, measure_b; lra).
  assert (K : 0 <= a - b * e3 /\ (b < 0 -> (m0 - 1) * e3 <= a - b * e3)) by (assert (a * e3 <= a) by nra; split; [destruct (Rle_dec 0 b); [assert (b * e3 <= b) by nra; lra|assert (b * e3 <= 0) by nra; lra]|intros; rewrite <- AB; lra]). destruct K as [K1 K2].
  assert (M : 1 + a * e6 - b * (e6 * e3) = 1 + e6 * (a - b * e3)) by ring.
  assert (M1 : 0 <= e6 * (a - b * e3)) by (apply Rmult_le_pos; lra).
  assert (U : 6 * a * e6 - 9 * b * (e6 * e3) = 6 * (e6 * (a - b * e3)) - 3 * b * (e6 * e3)) by ring.
  assert (EE : 0 < e6 * e3) by (apply Rmult_lt_0_compat; assumption).
  assert (UB : 6 * a * e6 - 9 * b * (e6 * e3) <= 9 * (e6 * (a - b * e3))).
  { rewrite U. destruct (Rle_dec 0 b) as [Hb|Hb]; [nra|]. assert (K3 := K2 ltac:(lra)).
    assert (- b * (e6 * e3) <= e6 * (a - b * e3)); [|lra]. replace (- b * (e6 * e3)) with (e6 * (- b * e3)) by ring. apply Rmult_le_compat_l; [lra|]. nra. }
  split; [lra|]. split; [apply pos_nonneg|]. unfold pos, cmax. destruct (Rlt_dec 0 (6 * a * e6 - 9 * b * (e6 * e3))); lra.
Qed.
Lemma measures_domain m u : 1 <= m -> 0 <= u <= 9 * (m - 1) -> 3 * m * u + 2 < 18 * (m * m * m).
Proof. intros H [H1 H2]. assert (0 <= (m - 2) * (m - 2)) by apply Rle_0_sqr. assert (u * 4 <= 9 * (m * m)) by lra. assert (1 <= m * m) by nra. assert (1 <= m * m * m) by nra.
  assert (0 <= m * (9 * (m * m) - u * 4)) by (apply Rmult_le_pos; lra). lra. Qed.

Lemma measures_start m0 u0 : 0 <= u0 -> measure_m m0 u0 0 = m0 /\ measure_u m0 u0 0 = u0.
Proof.
  intros H. unfold measure_m, measure_u, measure_a, measure_b. rewrite !Rmult_0_r, exp_0. split; [lra|].
  replace (6 * (3 * m0 - u0 / 3 - 3) * 1 - 9 * (2 * m0 - u0 / 3 - 2) * 1) with u0 by field. apply pos_id, H.
Qed.

(** ** the time *)
Lemma log_quotient c x : c <> 0 -> 0 <= x -> 0 < c * x + 1 -> 0 <= 2 / c * ln (c * x + 1).
Proof.
  intros C X P. destruct (Rlt_dec 0 c) as [H|H].
  - apply Rmult_le_pos; [apply Rle_mult_inv_pos; lra|]. rewrite <- ln_1. destruct (Req_dec (c * x) 0) as [->|]; [right; f_equal; lra|left; apply ln_increasing; nra].
  - assert (2 / c < 0). { assert (0 < 2 / - c) by (apply Rmult_lt_0_compat; [lra|apply Rinv_0_lt_compat; lra]). replace (2 / c) with (- (2 / - c)) by (field; lra). lra. }
    assert (ln (c * x + 1) <= 0); [|nra]. rewrite <- ln_1. destruct (Req_dec (c * x) 0) as [->|]; [right; f_equal; lra|left; apply ln_increasing; nra].
Qed.
Lemma cpow_nonneg x y z : 0 <= x -> cpow x y = Some z -> 0 <= z.
Proof.
  intros H. unfold cpow. destruct (Rlt_dec 0 x); [intros [= <-]; left; apply exp_pos|]. replace x with 0 by lra.
  assert (PZ : forall k, 0 <= powerRZ 0 k). { intros [|p|p]; cbn; [lra|apply pow_le; lra|]. rewrite pow_ne_zero by lia. rewrite Rinv_0. lra. }
  destruct (is_int y); [destruct (Req_EM_T 0 0); [destruct (Rlt_dec y 0); [discriminate|intros [= <-]; apply PZ]|intros [= <-]; apply PZ]|].
  destruct (Req_EM_T 0 0); [|discriminate]. destruct (Rlt_dec 0 y); [|discriminate]. intros [= <-]. lra.
Qed.
Section Time.
Variable P : par.
Notation MP := (prm P).
Lemma time_zero r d m0 u0 tau : nondimensionalized_time P r d m0 u0 0 = Some tau -> tau = 0.
Proof.
  assert (O : forall a g, oln (a * 0 + 1) = Some g -> g = 0).
  { intros a g. unfold oln. destruct (Rlt_dec 0 (a * 0 + 1)); [|discriminate]. intros [= <-]. rewrite Rmult_0_r, Rplus_0_l. apply ln_1. }
  unfold nondimensionalized_time, obind. destruct (POWER_LAW P); [destruct (SOLID P)|].
  - repeat match goal with
    | |- context [match ?x with _ => _ end] => destruct x as [?|?] eqn:?
    end; try discriminate; intros [= <-]; try reflexivity.
    match goal with H : oln _ = Some _ |- _ => apply O in H; rewrite H end. ring.
  - repeat match goal with
    | |- context [match ?x with _ => _ end] => destruct x as [?|?] eqn:?
    end; try discriminate; intros [= <-]; try reflexivity.
    match goal with H : oln _ = Some _ |- _ => apply O in H; rewrite H end. ring.
  - destruct (odiv _ _); [|discriminate]. intros [= <-]. ring.
Qed.
Hypothesis Hp : 0 < rho0 MP /\ 0 < b02 MP /\ 0 < mu MP.
Hypothesis Hs : SOLID P = true -> POWER_LAW P = true -> 0 < tau0 MP /\ 0 < sigY MP.
Lemma time_nonneg r d m0 u0 dt tau : 0 < r -> 0 <= dt -> nondimensionalized_time P r d m0 u0 dt = Some tau -> 0 <= tau.
Proof.
  intros Hr Hdt. destruct Hp as [H1 [H2 H3]]. unfold nondimensionalized_time.
  assert (CS : 0 < c_s2 MP r) by (unfold c_s2; apply Rmult_lt_0_compat; [exact H2|apply exp_pos]).
  destruct (POWER_LAW P) eqn:PL.
  - destruct (SOLID P) eqn:SO.
    + destruct (Hs eq_refl eq_refl) as [T0 SY]. set (c := _ - 4 * p4 _). destruct (Rle_dec c 0) as [|C]; [intros [= <-]; lra|].
      unfold obind. destruct (odiv c _) as [l|] eqn:EL; [|discriminate]. destruct (odiv (nn MP * l) (tau0 MP)) as [t1|] eqn:E1; [|discriminate].
      destruct (odiv (sqrt c * r * c_s2 MP r) _) as [w|] eqn:E2; [|discriminate]. destruct (cpow w (nn MP)) as [t2|] eqn:E3; [|discriminate].
      destruct (odiv 2 _) as [k|] eqn:E4; [|discriminate]. unfold oln. destruct (Rlt_dec 0 _) as [A|]; [|discriminate]. intros [= <-].
      apply odiv_inv in E1, E2, E4. destruct E1 as [_ ->], E2 as [_ ->], E4 as [N4 ->].
      assert (T2 : 0 <= t2) by (apply (cpow_nonneg _ _ _) in E3; [exact E3|]; apply Rle_mult_inv_pos; [|lra]; apply Rmult_le_pos; [apply Rmult_le_pos; [apply sqrt_pos|lra]|lra]).
      pose proof (exp_pos ((4 * nn MP + 7) * ln d)) as RP. fold (Rpower d (4 * nn MP + 7)) in RP.
      assert (EQ : nn MP * l / tau0 MP * Rpower d (4 * nn MP + 7) * t2 * dt = nn MP * l * (Rpower d (4 * nn MP + 7) * t2 * dt / tau0 MP)) by (field; lra).
      rewrite EQ in *. apply log_quotient; [exact N4| |exact A]. apply Rle_mult_inv_pos; [|lra]. apply Rmult_le_pos; [apply Rmult_le_pos; lra|lra].
    + unfold obind at 1. destruct (odiv (1 - nn MP) (nn MP)) as [k|]; [|discriminate]. set (c := _ - 4 * p4 _). destruct (Rle_dec c 0) as [|C]; [intros [= <-]; lra|].
      unfold obind. destruct (odiv c _) as [l|] eqn:EL; [|discriminate]. destruct (cpow (mu MP) _) as [mm|] eqn:EM; [|discriminate]. destruct (odiv (6 * mm) _) as [t0|] eqn:E0; [|discriminate].
      destruct (odiv (k * l) t0) as [t1|] eqn:E1; [|discriminate].
      destruct (cpow _ k) as [t2|] eqn:E3; [|discriminate].
      destruct (odiv 2 _) as [h|] eqn:E4; [|discriminate]. unfold oln. destruct (Rlt_dec 0 _) as [A|]; [|discriminate]. intros [= <-].
      apply odiv_inv in E0, E1, E4. destruct E0 as [_ ->], E1 as [N1 ->], E4 as [N4 ->].
      assert (MM : 0 <= mm) by (apply (cpow_nonneg _ _ _) in EM; [exact EM|lra]).
      assert (T0 : 0 < 6 * mm / (rho0 MP * b02 MP)). { assert (0 <= 6 * mm / (rho0 MP * b02 MP)) by (apply Rle_mult_inv_pos; [lra|apply Rmult_lt_0_compat; lra]). lra. }
      assert (S3 : 0 < sqrt 3) by (apply sqrt_lt_R0; lra).
      assert (T2 : 0 <= t2) by (apply (cpow_nonneg _ _ _) in E3; [exact E3|]; apply Rle_mult_inv_pos; [|lra]; apply Rmult_le_pos; [apply Rmult_le_pos; [apply sqrt_pos|lra]|lra]).
      pose proof (exp_pos ((4 * k + 7) * ln d)) as RP. fold (Rpower d (4 * k + 7)) in RP.
      set (T := 6 * mm / (rho0 MP * b02 MP)) in *.
      assert (EQ : k * l / T * Rpower d (4 * k + 7) * t2 * dt = k * l * (Rpower d (4 * k + 7) * t2 * dt / T)) by (field; lra).
      rewrite EQ in *. apply log_quotient; [exact N4| |exact A]. apply Rle_mult_inv_pos; [|lra]. apply Rmult_le_pos; [apply Rmult_le_pos; lra|lra].
  - unfold obind. destruct (odiv _ _) as [t|] eqn:E; [|discriminate]. intros [= <-]. apply odiv_inv in E. destruct E as [_ ->].
    apply Rmult_le_pos; [|exact Hdt]. apply Rle_mult_inv_pos; [|lra]. apply Rmult_le_pos; [nra|left; apply exp_pos].
Qed.
(** a Newtonian fluid or an elastic solid *)
Lemma time_newton r d m0 u0 dt : POWER_LAW P = false ->
  nondimensionalized_time P r d m0 u0 dt = Some (rho0 MP * b02 MP * Rpower d 7 / (3 * mu MP) * dt).
Proof. intros H. unfold nondimensionalized_time. rewrite H, odiv_some; [reflexivity|]. destruct Hp. lra. Qed.
End Time.
