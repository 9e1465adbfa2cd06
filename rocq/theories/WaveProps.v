(** Property C66: the wave speed estimate. *)
From Coq Require Import Reals ZArith Lra Psatz Lia FunctionalExtensionality.
From Coquelicot Require Import Coquelicot.
From Verif Require Import Base Options Sum Mat3 PhysModel PhysInst PhysSpec PhysProof2 PhysProps PhysProof7.
From Verif Require EqModel.
Import List ListNotations.
Open Scope R_scope.

(** real eigenvalues of the leading n x n block *)
Definition eigenvalue (n : nat) (M : nat -> nat -> R) (l : R) : Prop :=
  exists x, (exists k, (k < n)%nat /\ x k <> 0) /\ forall i, (i < n)%nat -> rsum n (fun j => M i j * x j) = l * x i.
(** the square of the sound speed is not negative, so its root is a number *)
Definition hyperbolic o P sm (Q : vec) : Prop :=
  0 <= (pressure o P sm Q / (Q 0%nat * Q 0%nat) - dEdrho o P sm Q) / dEdp o P sm Q.

(** Along the first axis the estimate bounds every real characteristic speed of the system. [sr] stands for the largest
    modulus among the eigenvalues Eigen computes. Not covered: heat conduction, the other axes (see below). *)
Theorem wave_speeds_bounded_partial o P sm sr ea src (Q : vec) : plain o P -> THERMAL o = false ->
  eos_ok (prm P) (Q 0%nat) -> Gamma_MG (prm P) (Q 0%nat) <> 0 -> b02 (prm P) <> 0 -> hyperbolic o P sm Q ->
  (forall l, eigenvalue 3 (thermo_acoustic_tensor o P sm Q 0) l -> Rabs l <= sr (thermo_acoustic_tensor o P sm Q 0)) ->
  forall mu_, eigenvalue (V o) (EqModel.system_matrix o (gpr o P sm sr ea src) Q 0) mu_ ->
  Rabs mu_ <= max_abs_eigs o P sm sr Q 0.
Proof.
  intros PL TH OK HG HB HY HS m (q & NZ & EIG). set (X := thermo_acoustic_tensor o P sm Q 0) in *.
  unfold max_abs_eigs. cbv zeta. fold X. change (Q (2 + 0)%nat / Q 0%nat) with (vv Q 0).
  assert (B : Rabs (m - vv Q 0) <= sqrt (sr X)).
  { destruct (Req_EM_T (m - vv Q 0) 0) as [->|N]; [rewrite Rabs_R0; apply sqrt_pos|].
    destruct (u_nonzero o P sm sr ea src PL TH Q q OK HG HB 0 ltac:(lia) m EIG N NZ) as (i & Hi & Ui).
    assert (L : Rabs ((m - vv Q 0) * (m - vv Q 0)) <= sr X).
    { apply HS. exists (uu Q q). split; [exists i; split; assumption|]. intros j Hj.
      rewrite <- (acoustic o P sm sr ea src PL TH Q q OK HG HB 0 ltac:(lia) m EIG HY j eq_refl Hj). unfold X. cbn [rsum]. unfold sum3. ring. }
    rewrite <- sqrt_Rsqr_abs. apply sqrt_le_1_alt. unfold Rsqr. eapply Rle_trans; [apply Rle_abs|exact L]. }
  assert (T := Rabs_triang (m - vv Q 0) (vv Q 0)). replace (m - vv Q 0 + vv Q 0) with m in T by ring.
  destruct (Rlt_dec 0 (vv Q 0)) as [L|L]; [rewrite (Rabs_right (vv Q 0)) in T by lra|rewrite (Rabs_left1 (vv Q 0)) in T by lra]; lra.
Qed.
Print Assumptions wave_speeds_bounded_partial.
(** It is never below the speed of the flow. *)
Theorem estimate_bounds_flow o P sm sr Q d : Rabs (Q (2 + d)%nat / Q 0%nat) <= max_abs_eigs o P sm sr Q d.
Proof.
  unfold max_abs_eigs. cbv zeta. assert (S := sqrt_pos (sr (thermo_acoustic_tensor o P sm Q d))).
  destruct (Rlt_dec _ _); [rewrite Rabs_right by lra|rewrite Rabs_left1 by lra]; lra.
Qed.
Print Assumptions estimate_bounds_flow.

(** an unstrained solid at rest *)
Definition still : vec := fun k => match k with O => 1 | 1%nat => 6 | 5%nat | 9%nat | 13%nat => 1 | _ => 0 end.
Notation Pd := (demo_par STIFFENED_GAS 300).
Lemma one_pow x : Rpower (1 / 1) x = 1. Proof. replace (1 / 1) with 1 by field. unfold Rpower. rewrite ln_1, Rmult_0_r. apply exp_0. Qed.
Lemma still_cs : c_s2 (prm Pd) 1 = 1. Proof. unfold c_s2. cbn. rewrite one_pow. ring. Qed.
Lemma still_dev : devGsq (get_A still) = 0. Proof. unfold devGsq, get_A, still, dot3, sum3. cbn. field. Qed.
Lemma still_p sm : pressure shipped Pd sm still = 1.
Proof.
  unfold pressure, internal_energy. cbn [PMULTI demo_par VISCOUS THERMAL shipped REACTION]. replace (Z.ltb (-1) (-1)) with false by reflexivity.
  unfold E_2A. rewrite still_dev. unfold E_3, dot3, sum3, get_rhov, pressure_mg, e_ref, p_ref, Gamma_MG, still. cbn. field.
Qed.
Lemma still_Er sm : dEdrho shipped Pd sm still = - 6.
Proof. unfold dEdrho. cbn [PMULTI demo_par]. rewrite still_p, still_dev. unfold dedrho, de_ref, dp_ref, dGamma_MG, p_ref, Gamma_MG, still. cbn. field. Qed.
Lemma still_Ep sm : dEdp shipped Pd sm still = 5 / 2. Proof. unfold dEdp, dedp, Gamma_MG. cbn. field. Qed.
Lemma still_G i j : (i < 3)%nat -> (j < 3)%nat -> gram (get_A still) i j = delta i j.
Proof. intros Hi Hj. unfold gram, mmul, mtr, sum3, get_A, still, delta. idx3 i; idx3 j; cbn; ring. Qed.
Lemma still_dG i j : (i < 3)%nat -> (j < 3)%nat -> AdevG (get_A still) i j = 0.
Proof. intros Hi Hj. unfold AdevG, mmul, mtr, sum3, get_A, still. idx3 i; idx3 j; cbn; field. Qed.
Lemma still_s d i : (i < 3)%nat -> sigma_col Pd still d i = 0.
Proof. intros Hi. unfold sigma_col, mvec, mscal, mtr, dEdA_s, mscal, sum3. rewrite !still_dG by lia. ring. Qed.
Example wave_hyps sm : plain shipped Pd /\ eos_ok (prm Pd) (still 0%nat) /\ Gamma_MG (prm Pd) (still 0%nat) <> 0 /\ b02 (prm Pd) <> 0 /\ hyperbolic shipped Pd sm still.
Proof.
  split; [repeat split; cbn; try reflexivity; lia|]. split; [repeat split; cbn; lra|]. split; [cbn; lra|]. split; [cbn; lra|].
  unfold hyperbolic. rewrite still_p, still_Er, still_Ep. cbn. lra.
Qed.

(** Along the second axis eig.cpp 11 and 35 still write the entries that belong to the first, so the sound speed drops out of
    the estimate: here the longitudinal wave is faster than the estimate, whatever routine finds the eigenvalues. *)
Definition mu1 : R := sqrt (62 / 15).
Definition ray : vec := fun k => match k with O => / mu1 | 1%nat => 7 * / mu1 | 3%nat => 1 | 9%nat => / mu1 | _ => 0 end.
Lemma mu1_sq : mu1 * mu1 = 62 / 15. Proof. apply sqrt_sqrt. lra. Qed.
Lemma mu1_pos : 0 < mu1. Proof. apply sqrt_lt_R0. lra. Qed.
Lemma vv_still i : (i < 3)%nat -> vv still i = 0.
Proof. intros Hi. unfold vv, still. idx3 i; cbn; field. Qed.
Theorem wave_speeds_bounded_refuted sm ea src : exists P Q m, plain shipped P /\ eos_ok (prm P) (Q 0%nat) /\ Gamma_MG (prm P) (Q 0%nat) <> 0 /\
  b02 (prm P) <> 0 /\ hyperbolic shipped P sm Q /\
  forall sr, (exists l, eigenvalue 3 (thermo_acoustic_tensor shipped P sm Q 1) l /\ Rabs l = sr (thermo_acoustic_tensor shipped P sm Q 1)) ->
    eigenvalue (V shipped) (EqModel.system_matrix shipped (gpr shipped P sm sr ea src) Q 1) m /\ max_abs_eigs shipped P sm sr Q 1 < Rabs m.
Proof.
  exists Pd, still, mu1. destruct (wave_hyps sm) as (PL & OK & HG & HB & HY). do 5 (split; [assumption|]).
  intros sr (l & (x & NX & EX) & HL). assert (MP := mu1_pos). assert (MQ := mu1_sq). split.
  - exists ray. split; [exists 3%nat; split; [cbn; lia|unfold ray; lra]|]. intros i Hi.
    assert (U0 : forall k, (k < 3)%nat -> uu still ray k = if Nat.eqb k 1 then 1 else 0).
    { intros k Hk. unfold uu. rewrite vv_still by exact Hk. unfold ray, still. idx3 k; cbn; field; lra. }
    assert (PPv : pp shipped Pd sm still ray = 14 / 5 * / mu1).
    { unfold pp, de_. replace (Z.ltb (-1) (REACTION Pd)) with false by reflexivity.
      replace (dedrho (prm Pd) (still 0%nat) (pressure shipped Pd sm still)) with (- 6).
      2:{ assert (E := still_Er sm). unfold dEdrho in E. cbn [PMULTI demo_par] in E. rewrite still_dev in E. cbn [prm demo_par] in *. lra. }
      rewrite still_dev. unfold dot3, sum3. rewrite !vv_still by lia.
      replace (frob3 (dEdA Pd still) (get_A ray)) with 0 by (unfold frob3, sum3, dEdA, mscal; rewrite !still_dG by lia; ring).
      unfold dedp, Gamma_MG, still, ray. cbn. field. lra. }
    assert (SSv : forall k, (k < 3)%nat -> ss_ Pd still ray 1 k = if Nat.eqb k 1 then - (4 / 3) * / mu1 else 0).
    { intros k Hk. unfold ss_, dsigmadrho. rewrite still_s by exact Hk. unfold sum3, dsigmadA. 
      change (still 0%nat) with 1. rewrite still_cs. rewrite !still_G, !still_dG by lia. unfold get_A, still, ray, delta. idx3 k; cbn; field; lra. }
    destruct i as [|[|i]].
    + rewrite (row_0 shipped Pd sm sr ea src PL eq_refl still ray OK HG HB 1 ltac:(lia)). cbn [Nat.add]. unfold ray. field. lra.
    + rewrite (row_1 shipped Pd sm sr ea src PL eq_refl still ray OK HG HB 1 ltac:(lia)). rewrite still_p. unfold dot3, sum3.
      rewrite !vv_still, !still_s, !U0 by lia. cbn [Nat.eqb]. change (still 1%nat) with 6. change (ray 1%nat) with (7 * / mu1). field. lra.
    + destruct (le_lt_dec 3 i) as [G|L].
      * destruct (le_lt_dec 12 i) as [G2|L2].
        -- rewrite (row_ls shipped Pd sm sr ea src PL eq_refl still ray OK HG HB 1 ltac:(lia)) by (cbn in *; lia). rewrite vv_still by lia.
           unfold ray. do 12 (destruct i as [|i]; [lia|]). ring.
        -- assert (K : exists a b, (a < 3)%nat /\ (b < 3)%nat /\ S (S i) = (5 + 3 * a + b)%nat).
           { exists ((i - 3) / 3)%nat, ((i - 3) mod 3)%nat. assert (E := Nat.div_mod (i - 3) 3 ltac:(lia)).
             assert (M := Nat.mod_upper_bound (i - 3) 3 ltac:(lia)). split; [apply Nat.div_lt_upper_bound; lia|]. split; [exact M|lia]. }
           destruct K as (a & b & Ha & Hb & ->). rewrite (row_A shipped Pd sm sr ea src PL eq_refl still ray OK HG HB 1 ltac:(lia)) by assumption.
           rewrite vv_still by lia. unfold mvec, sum3. rewrite !U0 by lia. unfold get_A, still, ray, delta. clear - MP Ha Hb. idx3 a; idx3 b; cbn; field; lra.
      * change (S (S i)) with (2 + i)%nat. rewrite (row_v shipped Pd sm sr ea src PL eq_refl still ray OK HG HB 1 ltac:(lia)) by exact L.
        rewrite !vv_still, PPv, SSv by lia. unfold delta. change (still 0%nat) with 1.
        assert (Y : 14 / 5 * / mu1 + 4 / 3 * / mu1 = mu1) by (apply Rmult_eq_reg_r with mu1; [|lra]; rewrite MQ; field; lra).
        clear - Y L. unfold ray. idx3 i; cbn; lra.
  - assert (LB : Rabs l <= 4 / 3).
    { assert (C0 : c_0 shipped Pd sm still * c_0 shipped Pd sm still = 14 / 5).
      { unfold c_0. rewrite sqrt_sqrt by exact HY. rewrite still_p, still_Er, still_Ep. unfold still. field. }
      assert (X2 : forall k j, (k < 5)%nat -> (j < 3)%nat -> Xi2 shipped Pd sm 1 1 still 1 k j =
        match k with O => if Nat.eqb j 0 then 1 else 0 | 1%nat => if Nat.eqb j 1 then 14 / 5 else 0 | _ => delta (k - 2) j end).
      { intros k j Hk Hj. unfold Xi2, addblock, setblock. cbn [VISCOUS THERMAL shipped]. cbv beta zeta.
        assert (SJ : sigma_col Pd still 1 (j - 0)%nat - 1 * dsigmadrho Pd still 1 (j - 0)%nat = 0) by (unfold dsigmadrho; rewrite still_s by lia; ring).
        rewrite SJ. rewrite Rmult_1_l, C0. unfold get_A, still, delta. destruct k as [|[|[|[|[|k]]]]]; [| | | | |lia]; idx3 j; cbn; ring. }
      assert (X1 : forall i k, (i < 3)%nat -> (k < 5)%nat -> Xi1 shipped Pd 1 1 still 1 i k =
        match k with O => 0 | 1%nat => if Nat.eqb i 0 then 1 else 0 | _ => if Nat.eqb i (k - 2) then (if Nat.eqb i 1 then 4 / 3 else 1) else 0 end).
      { intros i k Hi Hk. unfold Xi1, setblock. cbn [VISCOUS THERMAL shipped]. cbv beta zeta.
        assert (SI : dsigmadrho Pd still 1 (i - 0)%nat = 0) by (unfold dsigmadrho; rewrite still_s by lia; ring). rewrite SI.
        assert (DA : forall m, (m < 3)%nat -> dsigmadA_dir Pd still 1 (i - 0)%nat m = if Nat.eqb i m then - (if Nat.eqb i 1 then 4 / 3 else 1) else 0).
        { intros m Hm. unfold dsigmadA_dir. fold (gram (get_A still)). rewrite still_dG, !still_G by lia. change (still 0%nat) with 1. rewrite still_cs.
          unfold get_A, still, delta. idx3 i; idx3 m; cbn; field. }
        destruct k as [|[|[|[|[|k]]]]]; [| | | | |lia]; rewrite ?DA by lia; cbn [Nat.sub]; rewrite ?DA by lia; idx3 i; cbn; field. }
      assert (TX : forall i, (i < 3)%nat -> rsum 3 (fun j => thermo_acoustic_tensor shipped Pd sm still 1 i j * x j) =
        match i with O => x 0%nat + 14 / 5 * x 1%nat | 1%nat => 4 / 3 * x 1%nat | _ => x 2%nat end).
      { intros i Hi. unfold thermo_acoustic_tensor. rewrite still_p. change (still 0%nat) with 1. cbv zeta. cbn [rsum].
        rewrite !X1, !X2 by lia. unfold delta. idx3 i; cbn; field. }
      assert (E0 := EX 0%nat ltac:(lia)). assert (E1 := EX 1%nat ltac:(lia)). assert (E2 := EX 2%nat ltac:(lia)). rewrite TX in E0, E1, E2 by lia.
      assert (L : l = 4 / 3 \/ l = 1).
      { destruct (Req_EM_T (x 1%nat) 0) as [Z|N].
        - rewrite Z in E0. destruct (Req_EM_T (x 0%nat) 0) as [Z0|N0].
          + destruct (Req_EM_T (x 2%nat) 0) as [Z2|N2]; [|right; apply Rmult_eq_reg_r with (x 2%nat); lra].
            exfalso. destruct NX as (k & Hk & NK). idx3 k; contradiction.
          + right. apply Rmult_eq_reg_r with (x 0%nat); lra.
        - left. apply Rmult_eq_reg_r with (x 1%nat); lra. }
      destruct L as [->| ->]; rewrite Rabs_right by lra; lra. }
    rewrite (Rabs_right mu1) by lra. unfold max_abs_eigs. cbv zeta. change (still (2 + 1)%nat / still 0%nat) with (vv still 1). rewrite vv_still by lia.
    destruct (Rlt_dec 0 0) as [B|_]; [lra|]. rewrite Rminus_0_r, <- HL. unfold mu1. apply sqrt_lt_1; [apply Rabs_pos|lra|lra].
Qed.
Print Assumptions wave_speeds_bounded_refuted.
