(** Proofs about the Runge-Kutta integrator and the reaction step. *)
From Coq Require Import Reals ZArith Lra Psatz Lia List.
From Coquelicot Require Import Coquelicot.
From Verif Require Import Base Options Mat3 PhysModel PhysInst UtilsModel UtilsProof RelaxModel.
Open Scope R_scope.

Definition taylor4 (z : R) : R := 1 + z + z * z / 2 + z * z * z / 6 + z * z * z * z / 24.
Lemma rk4_linear a y dt : rk4 (fun y => Ok (option_map (Rmult a) y)) (Some y) dt = Ok (Some (y * (taylor4 (a * dt) - 1))).
Proof. unfold rk4. cbn. do 2 f_equal. unfold taylor4. field. Qed.
Lemma steps_linear a n : forall y dt, rk_steps (fun y => Ok (option_map (Rmult a) y)) n (Some y) dt = Ok (Some (y * taylor4 (a * dt) ^ n)).
Proof.
  induction n as [|n IH]; intros y dt; cbn [rk_steps]; [cbn; do 2 f_equal; ring|]. rewrite rk4_linear. cbn [bind oadd omap2]. rewrite IH. do 2 f_equal. cbn [pow]. ring.
Qed.
Lemma rk4_affine a b y dt : a <> 0 -> rk4 (fun y => Ok (option_map (fun y => a * y + b) y)) (Some y) dt = Ok (Some ((y + b / a) * (taylor4 (a * dt) - 1))).
Proof. intros A. unfold rk4. cbn. do 2 f_equal. unfold taylor4. field. exact A. Qed.
Lemma steps_affine a b n : a <> 0 -> forall y dt, rk_steps (fun y => Ok (option_map (fun y => a * y + b) y)) n (Some y) dt = Ok (Some ((y + b / a) * taylor4 (a * dt) ^ n - b / a)).
Proof.
  intros A. induction n as [|n IH]; intros y dt; cbn [rk_steps]; [cbn; do 2 f_equal; ring|]. rewrite rk4_affine by exact A. cbn [bind oadd omap2]. rewrite IH. do 2 f_equal. cbn [pow]. ring.
Qed.
Lemma steps_const c n : forall y dt, rk_steps (fun _ => Ok (Some c)) n (Some y) dt = Ok (Some (y + INR n * dt * c)).
Proof.
  induction n as [|n IH]; intros y dt; cbn [rk_steps]; [cbn; do 2 f_equal; ring|]. unfold rk4. cbn [bind oscale option_map oadd omap2]. unfold oadd, omap2, oscale, option_map. rewrite IH. do 2 f_equal. rewrite S_INR. field.
Qed.
Lemma steps_fixed f y dt n : f (Some y) = Ok (Some 0) -> rk_steps f n (Some y) dt = Ok (Some y).
Proof.
  intros H. induction n as [|n IH]; cbn [rk_steps]; [reflexivity|]. unfold rk4. rewrite H. cbn [bind oscale option_map oadd omap2]. unfold oadd, omap2, oscale, option_map.
  replace (y + / 2 * (dt * 0)) with y by ring. rewrite H. cbn [bind]. replace (y + / 2 * (dt * 0)) with y by ring. rewrite H. cbn [bind]. replace (y + dt * 0) with y by ring. rewrite H. cbn [bind].
  replace (y + / 6 * (dt * 0 + 2 * (dt * 0) + 2 * (dt * 0) + dt * 0)) with y by field. exact IH.
Qed.
Lemma launch_some f fuel tf y y0 N : launch f fuel tf y (Some y0) N = Ok (Some y0).
Proof. destruct fuel; reflexivity. Qed.

Section Any.
Variable f : option R -> res (option R).
Hypothesis F : forall y, f y <> NoFuel.
Lemma rk4_fuel y dt : rk4 f y dt <> NoFuel.
Proof.
  unfold rk4. destruct (f y) eqn:E1; cbn [bind]; try discriminate; [|exfalso; exact (F _ E1)]. destruct (f (oadd y _)) eqn:E2; cbn [bind]; try discriminate; [|exfalso; exact (F _ E2)].
  destruct (f (oadd y (oscale _ (oscale _ a0)))) eqn:E3; cbn [bind]; try discriminate; [|exfalso; exact (F _ E3)].
  destruct (f (oadd y (oscale _ a1))) eqn:E4; cbn [bind]; try discriminate. exfalso; exact (F _ E4).
Qed.
Lemma steps_fuel n : forall y dt, rk_steps f n y dt <> NoFuel.
Proof.
  induction n as [|n IH]; intros y dt; cbn [rk_steps]; [discriminate|]. destruct (rk4 f y dt) eqn:E; cbn [bind]; try discriminate; [apply IH|exfalso; exact (rk4_fuel _ _ E)].
Qed.
Lemma launch_fuel fuel : forall tf y y0 N, (64 < 2 ^ Z.of_nat (S fuel) * N)%Z -> launch f (S fuel) tf y y0 N <> NoFuel.
Proof.
  induction fuel as [|fuel IH]; intros tf y y0 N HN.
  - destruct y0 as [y0|]; [discriminate|]. cbn [launch isnan]. destruct (runge_kutta f tf y (2 * N)) eqn:E; cbn [bind]; try discriminate; [|exfalso; exact (steps_fuel _ _ _ E)].
    destruct (Z.ltb_spec 64 (2 * N)); [discriminate|]. change (2 ^ Z.of_nat 1)%Z with 2%Z in HN. lia.
  - destruct y0 as [y0|]; [rewrite launch_some; discriminate|]. set (fl := S fuel) in *. cbn [launch isnan]. destruct (runge_kutta f tf y (2 * N)) eqn:E; cbn [bind]; try discriminate; [|exfalso; exact (steps_fuel _ _ _ E)].
    destruct (Z.ltb_spec 64 (2 * N)); [discriminate|]. apply IH. rewrite Nat2Z.inj_succ, Z.pow_succ_r in HN by lia. lia.
Qed.
End Any.
(** what the launcher returns *)
Lemma launch_result f fuel : forall tf y y0 N z, runge_kutta f tf y N = Ok y0 -> launch f fuel tf y y0 N = Ok z ->
  exists k, runge_kutta f tf y (2 ^ Z.of_nat k * N) = Ok z /\ (forall i, (i < k)%nat -> runge_kutta f tf y (2 ^ Z.of_nat i * N) = Ok None) /\
    (z = None -> (64 < 2 ^ Z.of_nat k * N)%Z).
Proof.
  induction fuel as [|fuel IH]; intros tf y y0 N z H0 HL.
  - destruct y0 as [y0|]; cbn in HL; [|discriminate]. injection HL as <-. exists 0%nat. change (2 ^ Z.of_nat 0)%Z with 1%Z. rewrite Z.mul_1_l. split; [exact H0|]. split; [lia|discriminate].
  - destruct y0 as [y0|].
    + rewrite launch_some in HL. injection HL as <-. exists 0%nat. change (2 ^ Z.of_nat 0)%Z with 1%Z. rewrite Z.mul_1_l. split; [exact H0|]. split; [lia|discriminate].
    + cbn [launch isnan] in HL. destruct (runge_kutta f tf y (2 * N)) as [y1| | |] eqn:E; cbn [bind] in HL; try discriminate. destruct (Z.ltb_spec 64 (2 * N)).
      * injection HL as <-. exists 1%nat. change (2 ^ Z.of_nat 1)%Z with 2%Z. split; [exact E|]. split; [|lia]. intros i Hi. replace i with 0%nat by lia. change (2 ^ Z.of_nat 0)%Z with 1%Z. rewrite Z.mul_1_l. exact H0.
      * destruct (IH tf y y1 (2 * N)%Z z E HL) as [k [K1 [K2 K3]]]. assert (SH : forall i, (2 ^ Z.of_nat (S i) * N = 2 ^ Z.of_nat i * (2 * N))%Z) by (intros i; rewrite Nat2Z.inj_succ, Z.pow_succ_r by lia; ring).
        exists (S k). rewrite SH. split; [exact K1|]. split; [|exact K3]. intros [|i] Hi; [change (2 ^ Z.of_nat 0)%Z with 1%Z; rewrite Z.mul_1_l; exact H0|]. rewrite SH. apply K2. lia.
Qed.

(** ** a rate that is never positive *)
Lemma rk4_decay f y dt z : (forall y z, f (Some y) = Ok (Some z) -> z <= 0) -> 0 <= dt -> rk4 f (Some y) dt = Ok (Some z) -> z <= 0.
Proof.
  intros F Hd H. unfold rk4 in H. destruct (f (Some y)) as [k1| | |] eqn:E1; cbn [bind] in H; try discriminate. destruct (f (oadd (Some y) (oscale _ (oscale dt k1)))) as [k2| | |] eqn:E2; cbn [bind] in H; try discriminate.
  destruct (f (oadd (Some y) (oscale _ (oscale dt k2)))) as [k3| | |] eqn:E3; cbn [bind] in H; try discriminate. destruct (f (oadd (Some y) (oscale dt k3))) as [k4| | |] eqn:E4; cbn [bind] in H; try discriminate.
  destruct k1 as [k1|], k2 as [k2|], k3 as [k3|], k4 as [k4|]; cbn in H; try discriminate. injection H as <-. cbn in E2, E3, E4. apply F in E1, E2, E3, E4.
  assert (dt * k1 <= 0) by nra. assert (dt * k2 <= 0) by nra. assert (dt * k3 <= 0) by nra. assert (dt * k4 <= 0) by nra. lra.
Qed.
Lemma steps_nan f n dt z : rk_steps f n None dt = Ok z -> z = None.
Proof.
  induction n as [|n IH]; cbn [rk_steps]; [congruence|]. destruct (rk4 f None dt) as [d| | |]; cbn [bind]; try discriminate. exact IH.
Qed.
Lemma steps_decay f n : (forall y z, f (Some y) = Ok (Some z) -> z <= 0) -> forall y dt z, 0 <= dt -> rk_steps f n (Some y) dt = Ok (Some z) -> z <= y.
Proof.
  intros F. induction n as [|n IH]; intros y dt z Hd H; cbn [rk_steps] in H; [injection H as <-; lra|]. destruct (rk4 f (Some y) dt) as [d| | |] eqn:E; cbn [bind] in H; try discriminate.
  destruct d as [d|]; cbn [oadd omap2] in H; [|apply steps_nan in H; discriminate]. apply IH in H; [|exact Hd]. apply (rk4_decay f y dt d F Hd) in E. lra.
Qed.

(** ** accuracy for linear equations *)
Lemma pow_diff t e M n : Rabs t <= M -> Rabs e <= M -> Rabs (t ^ S n - e ^ S n) <= INR (S n) * Rabs (t - e) * M ^ n.
Proof.
  intros HT HE. assert (M0 : 0 <= M) by (pose proof (Rabs_pos t); lra). induction n as [|n IH].
  - cbn [pow INR]. rewrite !Rmult_1_r, Rmult_1_l. lra.
  - replace (t ^ S (S n) - e ^ S (S n)) with (t * (t ^ S n - e ^ S n) + (t - e) * e ^ S n) by (cbn [pow]; ring). eapply Rle_trans; [apply Rabs_triang|]. rewrite !Rabs_mult, <- RPow_abs.
    assert (EP : Rabs e ^ S n <= M ^ S n) by (apply pow_incr; split; [apply Rabs_pos|exact HE]).
    assert (A : Rabs t * Rabs (t ^ S n - e ^ S n) <= M * (INR (S n) * Rabs (t - e) * M ^ n)) by (apply Rmult_le_compat; try apply Rabs_pos; assumption).
    assert (B : Rabs (t - e) * Rabs e ^ S n <= Rabs (t - e) * M ^ S n) by (apply Rmult_le_compat_l; [apply Rabs_pos|exact EP]).
    rewrite (S_INR (S n)). cbn [pow] in *. lra.
Qed.
Lemma exp_derive_n c n : forall x, is_derive_n (fun t => exp (c * t)) n x (c ^ n * exp (c * x)).
Proof.
  induction n as [|n IH]; intros x; [cbn; ring|]. cbn [is_derive_n]. apply is_derive_ext with (fun x => c ^ n * exp (c * x)); [intros t; symmetry; apply is_derive_n_unique, IH|]. auto_derive; [exact I|]. cbn [pow]. ring.
Qed.
Lemma exp_taylor c u : c * c = 1 -> 0 < u -> exists z, 0 < z < u /\ exp (c * u) = taylor4 (c * u) + c * u ^ 5 / 120 * exp (c * z).
Proof.
  intros C U. destruct (Taylor_Lagrange (fun t => exp (c * t)) 4 0 u U) as [z [Hz E]].
  - intros t _ k _. destruct k as [|k]; [exact I|]. eexists. apply (exp_derive_n c (S k) t).
  - exists z. split; [exact Hz|]. rewrite E. rewrite !(is_derive_n_unique _ _ _ _ (exp_derive_n c _ z)). cbn [sum_f_R0]. rewrite !(is_derive_n_unique _ _ _ _ (exp_derive_n c _ 0)).
    rewrite Rmult_0_r, exp_0, !Rminus_0_r. unfold taylor4. cbn [fact pow INR Nat.mul Nat.add]. replace (c * (c * 1)) with 1 by lra.
    replace (c * 1) with c by ring. replace (c * (c * (c * (c * c)))) with c by (replace (c * (c * (c * (c * c)))) with (c * c * (c * c) * c) by ring; rewrite C; ring).
    replace (c * (c * (c * c))) with 1 by (replace (c * (c * (c * c))) with (c * c * (c * c)) by ring; rewrite C; ring). replace (c * (c * c)) with c by (rewrite C; ring).
    replace (c * u * (c * u) * (c * u) * (c * u)) with (c * c * (c * c) * u * u * u * u) by ring. replace (c * u * (c * u) * (c * u)) with (c * c * c * u * u * u) by ring. replace (c * u * (c * u)) with (c * c * u * u) by ring.
    rewrite C. simpl. field.
Qed.
Lemma taylor_abs x : Rabs (taylor4 x) <= taylor4 (Rabs x).
Proof.
  unfold taylor4. assert (T := Rabs_triang). assert (A2 : Rabs (x * x / 2) = Rabs x * Rabs x / 2) by (unfold Rdiv; rewrite !Rabs_mult, (Rabs_pos_eq (/ 2)) by lra; reflexivity).
  assert (A3 : Rabs (x * x * x / 6) = Rabs x * Rabs x * Rabs x / 6) by (unfold Rdiv; rewrite !Rabs_mult, (Rabs_pos_eq (/ 6)) by lra; reflexivity).
  assert (A4 : Rabs (x * x * x * x / 24) = Rabs x * Rabs x * Rabs x * Rabs x / 24) by (unfold Rdiv; rewrite !Rabs_mult, (Rabs_pos_eq (/ 24)) by lra; reflexivity).
  assert (T1 := T 1 x). assert (T2 := T (1 + x) (x * x / 2)). assert (T3 := T (1 + x + x * x / 2) (x * x * x / 6)). assert (T4 := T (1 + x + x * x / 2 + x * x * x / 6) (x * x * x * x / 24)). rewrite Rabs_R1 in T1. lra.
Qed.
Lemma taylor_exp u : 0 <= u -> taylor4 u <= exp u.
Proof.
  intros [U|<-]; [|unfold taylor4; rewrite exp_0; lra]. destruct (exp_taylor 1 u ltac:(ring) U) as [z [Z E]]. rewrite !Rmult_1_l in E. rewrite E. assert (0 < u ^ 5 / 120 * exp z) by (apply Rmult_lt_0_compat; [apply Rdiv_lt_0_compat; [apply pow_lt, U|lra]|apply exp_pos]). lra.
Qed.
Lemma taylor_error x : Rabs (taylor4 x - exp x) <= Rabs x ^ 5 / 120 * exp (Rabs x).
Proof.
  assert (G : forall c u, c * c = 1 -> 0 < u -> Rabs (taylor4 (c * u) - exp (c * u)) <= u ^ 5 / 120 * exp u).
  { intros c u C U. destruct (exp_taylor c u C U) as [z [Z E]]. rewrite E. replace (taylor4 (c * u) - (taylor4 (c * u) + c * u ^ 5 / 120 * exp (c * z))) with (- c * (u ^ 5 / 120 * exp (c * z))) by (unfold Rdiv; ring).
    assert (AC : Rabs (- c) = 1). { rewrite Rabs_Ropp. assert (Q : Rabs c * Rabs c = 1) by (rewrite <- Rabs_mult, C; apply Rabs_R1). pose proof (Rabs_pos c). nra. }
    assert (U5 : 0 < u ^ 5 / 120) by (apply Rdiv_lt_0_compat; [apply pow_lt, U|lra]). rewrite Rabs_mult, AC, Rmult_1_l, Rabs_pos_eq by (left; apply Rmult_lt_0_compat; [exact U5|apply exp_pos]).
    apply Rmult_le_compat_l; [lra|]. left. apply exp_increasing. assert (c <= 1) by nra. nra. }
  destruct (Rtotal_order x 0) as [L|[->|L]].
  - rewrite (Rabs_left x) by exact L. replace (taylor4 x - exp x) with (taylor4 (-1 * - x) - exp (-1 * - x)) by (replace (-1 * - x) with x by ring; reflexivity). apply G; lra.
  - replace (taylor4 0 - exp 0) with 0 by (unfold taylor4; rewrite exp_0; field). rewrite Rabs_R0. cbn [pow]. lra.
  - rewrite (Rabs_pos_eq x) by lra. replace (taylor4 x - exp x) with (taylor4 (1 * x) - exp (1 * x)) by (rewrite Rmult_1_l; reflexivity). apply G; lra.
Qed.
Lemma exp_INR n x : exp x ^ n = exp (INR n * x).
Proof. induction n as [|n IH]; [cbn; rewrite Rmult_0_l, exp_0; reflexivity|]. cbn [pow]. rewrite IH, <- exp_plus, S_INR. f_equal. ring. Qed.
Lemma order4 z n : Rabs (taylor4 (z / INR (S n)) ^ S n - exp z) <= Rabs z ^ 5 / 120 * exp (Rabs z) / INR (S n) ^ 4.
Proof.
  set (N := INR (S n)). assert (N0 : 0 < N) by (apply lt_0_INR; lia). set (x := z / N). assert (EZ : exp z = exp x ^ S n) by (rewrite exp_INR; fold N; f_equal; unfold x; field; lra). rewrite EZ.
  assert (AX : Rabs x = Rabs z / N) by (unfold x, Rdiv; rewrite Rabs_mult, Rabs_inv, (Rabs_pos_eq N) by lra; reflexivity).
  eapply Rle_trans; [apply (pow_diff _ _ (exp (Rabs x)))|].
  - eapply Rle_trans; [apply taylor_abs|apply taylor_exp, Rabs_pos].
  - rewrite Rabs_pos_eq by (left; apply exp_pos). destruct (Req_EM_T x (Rabs x)) as [<-|NE]; [lra|]. left. apply exp_increasing. pose proof (Rle_abs x). lra.
  - fold N. assert (TE := taylor_error x). assert (P0 : 0 < exp (Rabs x) ^ n) by (apply pow_lt, exp_pos).
    apply Rle_trans with (N * (Rabs x ^ 5 / 120 * exp (Rabs x)) * exp (Rabs x) ^ n); [apply Rmult_le_compat_r; [lra|]; apply Rmult_le_compat_l; lra|].
    replace (N * (Rabs x ^ 5 / 120 * exp (Rabs x)) * exp (Rabs x) ^ n) with (N * Rabs x ^ 5 / 120 * exp (Rabs x) ^ S n) by (cbn [pow]; field). rewrite exp_INR. fold N. rewrite AX.
    replace (N * (Rabs z / N)) with (Rabs z) by (field; lra). right. field. lra.
Qed.
