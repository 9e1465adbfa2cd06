(** Lemmas about relaxation/analytic.cpp: the new distortion. *)
From Coq Require Import Reals ZArith Lra Psatz Lia List.
From Verif Require Import Base Options Mat3 PhysModel PhysInst PhysSpec PhysProof2 RiemannProof UtilsModel UtilsProof RelaxModel RelaxSpec RelaxProof RelaxProof2 RelaxProof3.
Open Scope R_scope.

Lemma det_assemble U s W : det3 (assemble U s W) = det3 U * (s 0%nat * s 1%nat * s 2%nat) * det3 W.
Proof. unfold assemble, diag. m3. ring. Qed.
Lemma assemble_ext U s s' W : (forall i, (i < 3)%nat -> s i = s' i) -> meq (assemble U s W) (assemble U s' W).
Proof.
  intros H i j Hi Hj. unfold assemble, diag, mmul, mtr, sum3. cbn [Nat.eqb]. rewrite !H by lia. reflexivity.
Qed.
Lemma rebuild_ok U W d a b c : 0 < a -> 0 < b -> 0 < c -> exists A y, rebuild U W d (a, b, c) = Some A /\
  y = sort3 a b c /\ (forall i, (i < 3)%nat -> 0 < y i) /\ descending y /\ y 0%nat * y 1%nat * y 2%nat = a * b * c /\
  meq A (assemble U (fun i => d * sqrt (y i)) W).
Proof.
  intros Ha Hb Hc. unfold rebuild. set (y := sort3 a b c). destruct (sort3_cases a b c) as [p [q [r [E0 [E1 [E2 [O [_ [E3 [_ [Q _]]]]]]]]]]].
  fold y in E0, E1, E2. destruct (Q (fun z => 0 < z) Ha Hb Hc) as [P0 [P1 P2]]. rewrite !osqrt_some by (rewrite ?E0, ?E1, ?E2; lra). cbn [obind].
  eexists _, y. split; [reflexivity|]. split; [reflexivity|]. split; [intros i Hi; destruct i as [|[|[|i]]]; [rewrite E0|rewrite E1|rewrite E2|lia]; assumption|].
  split; [unfold descending; rewrite E0, E1, E2; exact O|]. split; [rewrite E0, E1, E2; exact E3|].
  intros i j Hi Hj. unfold assemble, diag, mmul, mtr, sum3. cbn [Nat.eqb]. ring.
Qed.

Lemma spread_diff x : ((x 0%nat - x 1%nat) * (x 0%nat - x 1%nat) + (x 1%nat - x 2%nat) * (x 1%nat - x 2%nat) + (x 2%nat - x 0%nat) * (x 2%nat - x 0%nat)) / 3 = spread x.
Proof. unfold spread, mean, sum3. field. Qed.
Lemma spread_nonneg x : 0 <= spread x.
Proof. unfold spread, sum3. assert (Q := fun i => Rle_0_sqr (x i - mean x)). unfold Rsqr in Q. assert (A := Q 0%nat). assert (B := Q 1%nat). assert (C := Q 2%nat). lra. Qed.

Section Relax.
Variable P : par.
Notation MP := (prm P).
Variable svd : mat3 -> mat3 * vec3 * mat3.
Variables (A U W : mat3) (s x : vec3).
Hypothesis ES : svd A = (U, s, W).
Hypothesis HS : svd_of A (U, s, W).
Hypothesis HD : det3 A <> 0.
Hypothesis HX : scaled s x.

Lemma s_pos : forall i, (i < 3)%nat -> 0 < s i.
Proof.
  destruct HS as [_ [_ [E [[O1 O2] Z]]]]. assert (s 2%nat <> 0).
  { intros E2. apply HD. rewrite (det_meq _ _ E), det_assemble, E2. ring. }
  intros i Hi. destruct i as [|[|[|i]]]; [| | |lia]; lra.
Qed.
Lemma prod_pos : 0 < s 0%nat * s 1%nat * s 2%nat.
Proof. assert (H0 := s_pos 0 ltac:(lia)). assert (H1 := s_pos 1 ltac:(lia)). assert (H2 := s_pos 2 ltac:(lia)). apply Rmult_lt_0_compat; [apply Rmult_lt_0_compat|]; assumption. Qed.
Notation d := (cbrt (s 0%nat * s 1%nat * s 2%nat)).
Lemma d_pos : 0 < d.
Proof. apply cbrt_pos, prod_pos. Qed.
Lemma x_quot : forall i, (i < 3)%nat -> s i * s i / (d * d) = x i.
Proof.
  destruct HX as [c [E H]]. assert (C : c = d) by (apply cube_inj; rewrite cbrt_cube; exact E). intros i Hi. rewrite <- (H i Hi), C. assert (Q := d_pos). field. lra.
Qed.
Lemma x_pos : forall i, (i < 3)%nat -> 0 < x i.
Proof. intros i Hi. rewrite <- (x_quot i Hi). assert (Q := s_pos i Hi). assert (Q' := d_pos). apply Rmult_lt_0_compat; [nra|apply Rinv_0_lt_compat; nra]. Qed.
Lemma x_desc : x 2%nat <= x 1%nat <= x 0%nat.
Proof.
  destruct HS as [_ [_ [_ [[O1 O2] Z]]]]. assert (Q' := d_pos). rewrite <- !x_quot by lia. assert (0 < / (d * d)) by (apply Rinv_0_lt_compat; nra).
  assert (H0 := s_pos 0 ltac:(lia)). assert (H1 := s_pos 1 ltac:(lia)).
  unfold Rdiv. split; apply Rmult_le_compat_r; try lra; nra.
Qed.
Lemma x_prod : x 0%nat * x 1%nat * x 2%nat = 1.
Proof.
  rewrite <- !x_quot by lia. assert (Q := cbrt_cube (s 0%nat * s 1%nat * s 2%nat)). assert (Q' := d_pos). set (c := d) in *.
  replace (s 0%nat * s 0%nat / (c * c) * (s 1%nat * s 1%nat / (c * c)) * (s 2%nat * s 2%nat / (c * c)))
    with ((s 0%nat * s 1%nat * s 2%nat) * (s 0%nat * s 1%nat * s 2%nat) / ((c * c * c) * (c * c * c))) by (field; lra).
  rewrite Q. assert (R := prod_pos). field. repeat split; intro Z; rewrite Z in R; lra.
Qed.
Lemma x_root : forall i, (i < 3)%nat -> d * sqrt (x i) = s i.
Proof.
  intros i Hi. assert (Q := d_pos). assert (R := s_pos i Hi). rewrite <- (x_quot i Hi).
  replace (s i * s i / (d * d)) with ((s i / d) * (s i / d)) by (field; lra). rewrite sqrt_square; [field; lra|]. apply Rle_mult_inv_pos; lra.
Qed.
Lemma relax_A_eq dt : relax_A P svd A dt =
  if Rle_dec (/ 10 ^ 12) (spread x) then
    tau <- nondimensionalized_time P (s 0%nat * s 1%nat * s 2%nat * rho0 MP) d (mean x) (spread x) dt ;;;
    y <- stretches (measure_m (mean x) (spread x) tau) (measure_u (mean x) (spread x) tau) ;;; rebuild U W d y
  else Some A.
Proof.
  unfold relax_A. rewrite ES. destruct (Req_EM_T (s 0%nat * s 1%nat * s 2%nat) 0) as [Z|_]; [assert (Q := prod_pos); lra|].
  rewrite !x_quot by lia. rewrite spread_diff. reflexivity.
Qed.

Lemma relax_stretched dt tau m u : nondimensionalized_time P (s 0%nat * s 1%nat * s 2%nat * rho0 MP) d (mean x) (spread x) dt = Some tau ->
  / 10 ^ 12 <= spread x -> m = measure_m (mean x) (spread x) tau -> u = measure_u (mean x) (spread x) tau ->
  0 < m -> 3 * m * u + 2 < 18 * (m * m * m) ->
  exists A' s', relax_A P svd A dt = Some A' /\ meq A' (assemble U s' W) /\ descending s' /\ 0 < s' 2%nat /\
    s' 0%nat * s' 1%nat * s' 2%nat = s 0%nat * s 1%nat * s 2%nat.
Proof.
  intros ET HU -> -> Hm Hd. rewrite relax_A_eq. destruct (Rle_dec (/ 10 ^ 12) (spread x)); [|contradiction]. rewrite ET. cbn [obind].
  destruct (stretches_ok _ (measure_u (mean x) (spread x) tau) Hm (pos_nonneg _) Hd) as [a [b [c [E [_ [Ha [Hb [Hc [Hp _]]]]]]]]]. rewrite E. cbn [obind].
  destruct (rebuild_ok U W d a b c Ha Hb Hc) as [A' [y [EB [_ [YP [YD [YE M]]]]]]]. exists A', (fun i => d * sqrt (y i)). split; [exact EB|]. split; [exact M|].
  assert (DP := d_pos). destruct YD as [Y1 Y2]. split; [|split].
  - split; apply Rmult_le_compat_l; try lra; apply sqrt_le_1; try assumption; apply Rlt_le, YP; lia.
  - apply Rmult_lt_0_compat; [exact DP|]. apply sqrt_lt_R0, YP. lia.
  - replace (d * sqrt (y 0%nat) * (d * sqrt (y 1%nat)) * (d * sqrt (y 2%nat))) with ((d * d * d) * (sqrt (y 0%nat) * sqrt (y 1%nat) * sqrt (y 2%nat))) by ring.
    rewrite cbrt_cube. assert (Q := fun i H => Rlt_le _ _ (YP i H)). rewrite <- !sqrt_mult by (try apply Rmult_le_pos; apply Q; lia). rewrite YE, Hp, sqrt_1. ring.
Qed.
Lemma relax_zero tau m u : nondimensionalized_time P (s 0%nat * s 1%nat * s 2%nat * rho0 MP) d (mean x) (spread x) 0 = Some tau ->
  m = mean x -> u = spread x -> first_stretch m u = x 0%nat \/ first_stretch m u = x 2%nat ->
  exists A', relax_A P svd A 0 = Some A' /\ meq A' A.
Proof.
  intros ET -> -> HF. rewrite relax_A_eq. destruct (Rle_dec (/ 10 ^ 12) (spread x)); [|exists A; split; [reflexivity|intros i j _ _; reflexivity]]. rewrite ET. cbn [obind].
  apply time_zero in ET. subst tau. destruct (measures_start (mean x) (spread x) (spread_nonneg x)) as [-> ->].
  assert (SP : spread x = (x 0%nat - mean x) * (x 0%nat - mean x) + (x 1%nat - mean x) * (x 1%nat - mean x) + (x 2%nat - mean x) * (x 2%nat - mean x)) by reflexivity.
  destruct (stretches_self (x 0%nat) (x 1%nat) (x 2%nat) (x_pos 2 ltac:(lia)) x_desc x_prod) as [a [b [c [E [S0 [S1 S2]]]]]].
  { exact HF. }
  change (x 0%nat + x 1%nat + x 2%nat) with (sum3 x) in E. fold (mean x) in E. rewrite <- SP in E. rewrite E. cbn [obind].
  assert (Q0 := x_pos 0 ltac:(lia)). assert (Q1 := x_pos 1 ltac:(lia)). assert (Q2 := x_pos 2 ltac:(lia)).
  unfold rebuild. rewrite S0, S1, S2, !osqrt_some by lra. cbn [obind]. eexists. split; [reflexivity|].
  destruct HS as [_ [_ [EA _]]]. intros i j Hi Hj. rewrite (EA i j Hi Hj). unfold assemble, diag, mmul, mtr, sum3. cbn [Nat.eqb]. rewrite !x_root by lia. ring.
Qed.
End Relax.
