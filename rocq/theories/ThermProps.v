(** Properties C66, C81 and C87 with heat conduction: wave speeds, interface corrections, eigenvectors. *)
From Coq Require Import Reals ZArith Lra Psatz Lia FunctionalExtensionality ClassicalEpsilon.
From Coquelicot Require Import Coquelicot.
From Verif Require Import Base Options Sum Mat3 PhysModel PhysInst PhysSpec PhysProof PhysProof2 PhysProof5 PhysProps PhysProof7 WaveProps.
From Verif Require Import RiemannModel RConsModel RConsSpec RConsProof RConsProof2 RConsProof3 RConsProof6 RConsProps EigProps ThermProof ThermProof2 ThermProof3 ThermProof4.
From Verif Require EqModel.
Open Scope R_scope.

(** what the heat wave needs: the specific heat does not vanish and the square of the heat wave speed is not negative, which
    is so at every positive absolute temperature *)
Definition conducting o P sm (Q : vec) : Prop := THERMAL o = true ->
  cv (prm P) <> 0 /\ 0 <= ca2 (prm P) * temperature o P sm Q / cv (prm P).

(** ** C66 *)
(** Along the first axis the estimate bounds every real characteristic speed, with and without heat conduction. (The other axes: see
    WaveProps.) *)
Theorem wave_speeds_bounded_heat_partial o P sm sr ea src (Q : vec) : plain o P ->
  eos_ok (prm P) (Q 0%nat) -> Gamma_MG (prm P) (Q 0%nat) <> 0 -> b02 (prm P) <> 0 -> hyperbolic o P sm Q -> conducting o P sm Q ->
  (forall l, eigenvalue (n1 o) (thermo_acoustic_tensor o P sm Q 0) l -> Rabs l <= sr (thermo_acoustic_tensor o P sm Q 0)) ->
  forall mu_, eigenvalue (V o) (EqModel.system_matrix o (gpr o P sm sr ea src) Q 0) mu_ ->
  Rabs mu_ <= max_abs_eigs o P sm sr Q 0.
Proof.
  intros PL OK HG HB HY CD HS m EV. destruct (THERMAL o) eqn:TH.
  2:{ apply (wave_speeds_bounded_partial o P sm sr ea src); try assumption. unfold n1 in HS. rewrite TH in HS. exact HS. }
  destruct (CD TH) as (HV & HT). destruct EV as (q & NZ & EIG). set (X := thermo_acoustic_tensor o P sm Q 0) in *.
  assert (N4 : n1 o = 4%nat) by (unfold n1; rewrite TH; reflexivity). rewrite N4 in HS.
  unfold max_abs_eigs. cbv zeta. fold X. change (Q (2 + 0)%nat / Q 0%nat) with (vv Q 0).
  assert (B : Rabs (m - vv Q 0) <= sqrt (sr X)).
  { destruct (Req_EM_T (m - vv Q 0) 0) as [->|N]; [rewrite Rabs_R0; apply sqrt_pos|].
    destruct (y_nonzero o P sm sr ea src PL TH Q q OK HG HB HV 0 ltac:(lia) m EIG eq_refl N NZ) as (i & Hi & Ui).
    assert (L : Rabs ((m - vv Q 0) * (m - vv Q 0)) <= sr X).
    { apply HS. exists (yy Q q). split; [exists i; split; assumption|]. intros j Hj.
      exact (ThermProof.acoustic o P sm sr ea src PL TH Q q OK HG HB HV 0 ltac:(lia) m EIG HY HT j eq_refl Hj). }
    rewrite <- sqrt_Rsqr_abs. apply sqrt_le_1_alt. unfold Rsqr. eapply Rle_trans; [apply Rle_abs|exact L]. }
  assert (T := Rabs_triang (m - vv Q 0) (vv Q 0)). replace (m - vv Q 0 + vv Q 0) with m in T by ring.
  destruct (Rlt_dec 0 (vv Q 0)) as [L|L]; [rewrite (Rabs_right (vv Q 0)) in T by lra|rewrite (Rabs_left1 (vv Q 0)) in T by lra]; lra.
Qed.
Print Assumptions wave_speeds_bounded_heat_partial.

(** ** C81 *)
(** A correction along an eigenvector of the acoustic tensor is, to first order, a wave of the full system, heat conduction or
    not, and it runs away from the interface. *)
Theorem correction_is_wave o m inverse qrsolve eigensolve Q sgn M (x : vec) lam sr ea src :
  inverse_ok inverse -> solve_ok qrsolve -> regular o (mpar m) (mix m) eigensolve Q -> hyperbolic o (mpar m) (mix m) Q -> conducting o (mpar m) (mix m) Q ->
  riemann_constraints o (mpar m) (mix m) inverse qrsolve eigensolve Q sgn = Ok M -> sgn = 1 \/ sgn = -1 ->
  (forall k, (n1 o <= k)%nat -> x k = 0) -> (exists k, (k < n1 o)%nat /\ x k <> 0) ->
  (forall i, (i < n1 o)%nat -> rsum (n1 o) (fun j => thermo_acoustic_tensor o (mpar m) (mix m) Q 0 i j * x j) = lam * x i) ->
  0 < lam /\ exists w : vec, (forall k, is_derive (fun t : R => apply_step o m M (fun j => t * x j) Q k) 0 (w k)) /\
    (exists k, (k < V o)%nat /\ w k <> 0) /\
    forall i, (i < V o)%nat -> rsum (V o) (fun j => EqModel.system_matrix o (gpr o (mpar m) (mix m) sr ea src) Q 0 i j * w j)
      = (Q 2%nat / Q 0%nat - sgn * sqrt lam) * w i.
Proof.
  intros IO SO RG HY CD HM SG HC NZ EX. destruct (THERMAL o) eqn:TH.
  2:{ assert (N3 : n1 o = 3%nat) by (unfold n1; rewrite TH; reflexivity). rewrite N3 in *.
      exact (correction_is_wave_partial o m inverse qrsolve eigensolve Q sgn M x lam sr ea src TH IO SO RG HY HM SG HC NZ EX). }
  destruct (CD TH) as (HV & HT). destruct RG as (PL & OK & HG & HB & HA & HP & EB).
  assert (S1 : sgn * sgn = 1) by (destruct SG as [-> | ->]; ring). split.
  - exact (lam_pos o (mpar m) (mix m) inverse eigensolve IO Q EB lam x EX NZ).
  - exact (step_wave_heat o m inverse qrsolve eigensolve IO SO PL TH Q OK HG HB HV HA EB sgn M HM x HC lam EX NZ S1 HY HT sr ea src).
Qed.
Print Assumptions correction_is_wave.

(** The temperature changes by what the correction asks for plus the slope of the reference curve times the change of the density, the
    term mg.cpp 281-294 drops (C47). *)
Theorem correction_temperature o m inverse qrsolve eigensolve Q sgn M (c : vec) :
  inverse_ok inverse -> solve_ok qrsolve -> regular o (mpar m) (mix m) eigensolve Q -> THERMAL o = true -> cv (prm (mpar m)) <> 0 ->
  riemann_constraints o (mpar m) (mix m) inverse qrsolve eigensolve Q sgn = Ok M -> (forall k, (n1 o <= k)%nat -> c k = 0) ->
  exists dr, is_derive (fun t : R => apply_step o m M (fun j => t * c j) Q 0%nat) 0 dr /\
    is_derive (fun t : R => temperature o (mpar m) (mix m) (apply_step o m M (fun j => t * c j) Q)) 0
      (c 3%nat + Tref (prm (mpar m)) * (Gamma_MG (prm (mpar m)) (Q 0%nat) / Q 0%nat * phi (prm (mpar m)) (Q 0%nat)) * dr).
Proof.
  intros IO SO (PL & OK & HG & HB & HA & HP & EB) TH HV HM HC. exists (dir o M c 0%nat).
  destruct (step_temperature o m inverse qrsolve eigensolve IO SO PL TH Q OK HG HV HA EB sgn M HM c HC) as (A & B). split; assumption.
Qed.
Print Assumptions correction_temperature.
(** So with a reference temperature the request for a temperature is missed by every correction that changes the density. *)
Theorem correction_temperature_refuted o m inverse qrsolve eigensolve Q sgn M (c : vec) :
  inverse_ok inverse -> solve_ok qrsolve -> regular o (mpar m) (mix m) eigensolve Q -> THERMAL o = true -> cv (prm (mpar m)) <> 0 -> Tref (prm (mpar m)) <> 0 ->
  riemann_constraints o (mpar m) (mix m) inverse qrsolve eigensolve Q sgn = Ok M -> (forall k, (n1 o <= k)%nat -> c k = 0) ->
  ~ is_derive (fun t : R => apply_step o m M (fun j => t * c j) Q 0%nat) 0 0 ->
  ~ is_derive (fun t : R => temperature o (mpar m) (mix m) (apply_step o m M (fun j => t * c j) Q)) 0 (c 3%nat).
Proof.
  intros IO SO RG TH HV T0 HM HC ND D. destruct (correction_temperature o m inverse qrsolve eigensolve Q sgn M c IO SO RG TH HV HM HC) as (dr & A & B).
  destruct RG as (PL & OK & HG & _).
  assert (E := is_derive_unique _ _ _ D). assert (E' := is_derive_unique _ _ _ B). assert (X := eq_trans (eq_sym E) E').
  assert (Hr : 0 < Q 0%nat) by apply OK. assert (Hp : 0 < phi (prm (mpar m)) (Q 0%nat)) by (unfold phi; destruct (kind (prm (mpar m))); apply exp_pos).
  assert (DZ : dr = 0).
  { assert (Y : Tref (prm (mpar m)) * (Gamma_MG (prm (mpar m)) (Q 0%nat) / Q 0%nat * phi (prm (mpar m)) (Q 0%nat)) * dr = 0) by lra.
    apply Rmult_integral in Y. destruct Y as [Y|Y]; [|exact Y]. exfalso. apply Rmult_integral in Y. destruct Y as [Y|Y]; [exact (T0 Y)|].
    apply Rmult_integral in Y. destruct Y as [Y|Y]; [|lra]. unfold Rdiv in Y. apply Rmult_integral in Y. destruct Y as [Y|Y]; [exact (HG Y)|].
    assert (0 < / Q 0%nat) by (apply Rinv_0_lt_compat, Hr). lra. }
  apply ND. rewrite DZ in A. exact A.
Qed.
Print Assumptions correction_temperature_refuted.

(** ** C87 *)
(** With heat conduction the first nine columns are waves: four sounds with the flow, four against it, and the contact. The last needs the
    shear modulus of the reference density, as without heat conduction. *)
Definition heat_speed (v : R) (l : vec) (j : nat) : R := if Nat.ltb j 4 then v + sqrt (l j) else if Nat.ltb j 8 then v - sqrt (l (j - 4)%nat) else v.
Theorem eigenvectors_heat_partial o P sm inverse eigensolve Q M sr ea src j : THERMAL o = true ->
  inverse_ok inverse -> regular o P sm eigensolve Q -> hyperbolic o P sm Q -> conducting o P sm Q ->
  eigen o P sm inverse eigensolve Q 0 = Ok M -> (j < 9)%nat ->
  (j = 8%nat -> c_s2 (prm P) (Q 0%nat) = b02 (prm P) /\ invertible 3 (dsigmadA_dir P Q 0)) ->
  wave o P sm sr ea src Q (fun i => M i j) (heat_speed (Q 2%nat / Q 0%nat) (fst (eigensolve 4%nat (thermo_acoustic_tensor o P sm Q 0))) j).
Proof.
  intros TH IO (PL & OK & HG & HB & HA & HP & EB) HY CD HM Hj C8. destruct (CD TH) as (HV & HT).
  assert (N4 : n1 o = 4%nat) by (unfold n1; rewrite TH; reflexivity). cbv zeta in EB. rewrite N4 in EB.
  exists (RConsProof5.w o P sm Q (fun i => M i j)). split.
  - intro k. exact (col_moves o P sm inverse eigensolve PL TH Q OK HG M HM j k Hj).
  - unfold heat_speed. destruct (Nat.ltb_spec j 4) as [L|G].
    + exact (proj1 (ThermProof4.col_sound o P sm inverse eigensolve PL TH Q OK HG HB HV HY HT sr ea src M HM EB j L)).
    + destruct (Nat.ltb_spec j 8) as [L|G8].
      * assert (X := proj2 (ThermProof4.col_sound o P sm inverse eigensolve PL TH Q OK HG HB HV HY HT sr ea src M HM EB (j - 4) ltac:(lia))).
        replace (4 + (j - 4))%nat with j in X by lia. exact X.
      * assert (E : j = 8%nat) by lia. destruct (C8 E) as (CB & IV). subst j.
        exact (ThermProof4.col_contact o P sm inverse eigensolve IO PL TH Q OK HG HB HV HY HT sr ea src M HM CB IV).
Qed.
Print Assumptions eigenvectors_heat_partial.
(** With heat conduction eigenvecs.cpp 45-66 leaves six columns at zero: the matrix is never a basis. *)
Theorem eigenvectors_heat_refuted o P sm inverse eigensolve Q M : THERMAL o = true -> eigen o P sm inverse eigensolve Q 0 = Ok M ->
  forall i j, (9 <= j < 15)%nat -> M i j = 0.
Proof.
  intros TH HM i j Hj. unfold eigen in HM. destruct (VISCOUS o); [|discriminate]. cbn [negb] in HM. rewrite TH in HM. cbv zeta in HM.
  match type of HM with Ok ?X = Ok M => assert (E : M = X) by congruence end. rewrite E. cbv beta. clear E HM.
  assert (N4 : n1 o = 4%nat) by (unfold n1; rewrite TH; reflexivity). rewrite N4.
  assert (K : (Nat.leb 15 i && Nat.ltb i (V o) && Nat.eqb i j)%bool = false).
  { destruct (Nat.leb_spec 15 i); [|reflexivity]. destruct (Nat.ltb i (V o)); [|reflexivity]. cbn [andb]. apply Nat.eqb_neq. lia. }
  rewrite K. clear K. unfold setblock, zero_mat.
  do 9 (destruct j as [|j]; [lia|]). do 6 (destruct j as [|j]; [cbn [Nat.leb Nat.ltb Nat.add andb]; rewrite ?Bool.andb_false_r; reflexivity|]). lia.
Qed.
Print Assumptions eigenvectors_heat_refuted.

(** ** non-vacuity: a conducting stiffened gas at rest, with a reference temperature *)
Definition hot_opt : options := mkopt true true false 2 true false 2.
Definition hot : par := let MP := mkparams STIFFENED_GAS 1 2 (5 / 2) 1 2 1 3 1 1 (7 / 5) 1 1 2 3 1 1 1 1 1 2 1 in mkpar MP false false false false (fun _ => 0) MP (-1) 0.
Lemma hot_p sm : pressure hot_opt hot sm still = 1.
Proof.
  unfold pressure, internal_energy. cbn [PMULTI hot VISCOUS THERMAL hot_opt REACTION]. replace (Z.ltb (-1) (-1)) with false by reflexivity.
  unfold E_2A. rewrite still_dev. unfold E_3, E_2J, dot3, sum3, get_rhov, get_rhoJ, pressure_mg, e_ref, p_ref, Gamma_MG, still. cbn. field.
Qed.
Lemma hot_Er sm : dEdrho hot_opt hot sm still = - 6.
Proof. unfold dEdrho. cbn [PMULTI hot]. rewrite hot_p, still_dev. unfold dedrho, de_ref, dp_ref, dGamma_MG, p_ref, Gamma_MG, still. cbn. field. Qed.
Lemma hot_Ep sm : dEdp hot_opt hot sm still = 5 / 2. Proof. unfold dEdp, dedp, Gamma_MG. cbn. field. Qed.
Lemma hot_T : temperature_mg (prm hot) 1 1 = 4.
Proof. unfold temperature_mg, phi, p_ref, Gamma_MG. cbn. replace (1 / 1) with 1 by field. rewrite ?ln_1, ?Rmult_0_r, ?exp_0. unfold Rpower. rewrite ?ln_1, ?Rmult_0_r, ?exp_0. field. Qed.
Lemma hot_Tr : dTdrho (prm hot) 1 1 = - 2. Proof. unfold dTdrho, dp_ref, dGamma_MG, p_ref, Gamma_MG. cbn. field. Qed.
Lemma hot_Tp : dTdp (prm hot) 1 = 1. Proof. unfold dTdp, dedp, Gamma_MG. cbn. field. Qed.
Lemma hot_ch : c_h hot 1 4 * c_h hot 1 4 = 16 / 5.
Proof. unfold c_h. replace (sqrt (ca2 (prm hot) * 4 / cv (prm hot)) / 1 * (sqrt (ca2 (prm hot) * 4 / cv (prm hot)) / 1)) with (sqrt (ca2 (prm hot) * 4 / cv (prm hot)) * sqrt (ca2 (prm hot) * 4 / cv (prm hot))) by field. rewrite sqrt_sqrt; cbn; lra. Qed.
Lemma hot_cs : c_s2 (prm hot) 1 = 1. Proof. unfold c_s2. cbn. rewrite one_pow. ring. Qed.
Lemma hot_s d i : (i < 3)%nat -> sigma_col hot still d i = 0.
Proof. intros Hi. unfold sigma_col, mvec, mscal, mtr, dEdA_s, mscal, sum3. rewrite !still_dG by lia. ring. Qed.
Lemma hot_dir a b : (a < 3)%nat -> (b < 3)%nat -> dsigmadA_dir hot still 0 a b = if Nat.eqb a b then (if Nat.eqb a 0 then - (4 / 3) else -1) else 0.
Proof.
  intros Ha Hb. unfold dsigmadA_dir. cbv zeta. change (mmul (mtr (get_A still)) (get_A still)) with (gram (get_A still)).
  rewrite still_dG, !still_G by lia. change (still 0%nat) with 1. rewrite hot_cs. unfold get_A, still, delta. idx3 a; idx3 b; cbn; field.
Qed.
Definition hot_xi (i j : nat) : R := match i, j with O, O => 62 / 15 | O, 3%nat => 16 / 5 | 3%nat, O => 4 / 5 | 3%nat, 3%nat => 16 / 5 | 1%nat, 1%nat => 1 | 2%nat, 2%nat => 1 | _, _ => 0 end.
Lemma hot_acoustic sm i j : (i < 4)%nat -> (j < 4)%nat -> thermo_acoustic_tensor hot_opt hot sm still 0 i j = hot_xi i j.
Proof.
  intros Hi Hj.
  assert (C0 : c_0 hot_opt hot sm still * c_0 hot_opt hot sm still = 14 / 5).
  { unfold c_0. rewrite sqrt_sqrt; rewrite hot_p, hot_Er, hot_Ep; unfold still; [field|lra]. }
  assert (SR : forall a, (a < 3)%nat -> dsigmadrho hot still 0 a = 0) by (intros a Ha; unfold dsigmadrho; rewrite hot_s by exact Ha; ring).
  unfold thermo_acoustic_tensor, Xi1, Xi2, addblock, setblock. cbv zeta. cbn [VISCOUS THERMAL hot_opt]. rewrite hot_p. change (still 0%nat) with 1.
  rewrite hot_T, hot_Tr, hot_Tp. assert (CH := hot_ch). set (h := c_h hot 1 4) in *. set (c := c_0 hot_opt hot sm still) in *.
  (destruct i as [|[|[|[|i]]]]; [| | | |lia]); (destruct j as [|[|[|[|j]]]]; [| | | |lia]);
    cbn [rsum Nat.leb Nat.ltb Nat.add Nat.sub Nat.eqb andb hot_xi]; rewrite ?hot_dir, ?SR, ?hot_s by lia; cbn [Nat.eqb];
    unfold get_A; cbn [Nat.add Nat.mul still]; try (field; fail);
    replace (1 * c * c) with (14 / 5) by (rewrite <- C0; ring); replace (1 * h * h) with (16 / 5) by (rewrite <- CH; ring); field.
Qed.
Definition hot_eig (n : nat) (M : mat) : vec * mat :=
  (fun k => match k with O => 16 / 3 | 3%nat => 2 | _ => 1 end,
   fun i j => match i, j with O, O => 8 | 3%nat, O => 3 | O, 3%nat => 3 | 3%nat, 3%nat => Ropp 2 | 1%nat, 1%nat => 1 | 2%nat, 2%nat => 1 | _, _ => 0 end).
Example hot_case sm : regular hot_opt hot sm hot_eig still /\ hyperbolic hot_opt hot sm still /\ conducting hot_opt hot sm still /\ THERMAL hot_opt = true /\
  Tref (prm hot) <> 0 /\ c_s2 (prm hot) (still 0%nat) = b02 (prm hot) /\ invertible 3 (dsigmadA_dir hot still 0) /\
  (let x : vec := fun k => match k with O => 8 | 3%nat => 3 | _ => 0 end in
   forall i, (i < 4)%nat -> rsum 4 (fun j => thermo_acoustic_tensor hot_opt hot sm still 0 i j * x j) = 16 / 3 * x i).
Proof.
  assert (IV : invertible 3 (dsigmadA_dir hot still 0)).
  { exists (fun i j => if Nat.eqb i j then (if Nat.eqb i 0 then - (3 / 4) else -1) else 0).
    intros i j Hi Hj. unfold mm, eye. cbn [rsum]. rewrite !hot_dir by lia. idx3 i; idx3 j; cbn [Nat.eqb]; split; field. }
  split; [|split; [|split; [|split; [|split; [|split; [|split]]]]]].
  - split; [repeat split; cbn; try reflexivity; lia|]. split; [repeat split; cbn; lra|]. split; [cbn; lra|]. split; [cbn; lra|]. split; [|split].
    + exists eye. apply (inv_ext 3 eye); [|apply eye_inv]. intros i j Hi Hj. unfold eye, get_A, still. idx3 i; idx3 j; reflexivity.
    + discriminate.
    + split; [|split].
      * intros k Hk. cbn [fst hot_eig]. destruct k as [|[|[|[|k]]]]; lra.
      * exists (fun i j => match i, j with O, O => 2 / 25 | 3%nat, O => 3 / 25 | O, 3%nat => 3 / 25 | 3%nat, 3%nat => - (8 / 25) | 1%nat, 1%nat => 1 | 2%nat, 2%nat => 1 | _, _ => 0 end).
        intros i j Hi Hj. change (n1 hot_opt) with 4%nat in *. unfold mm, eye. cbn [rsum snd hot_eig].
        (destruct i as [|[|[|[|i]]]]; [| | | |lia]); (destruct j as [|[|[|[|j]]]]; [| | | |lia]); cbn [Nat.eqb]; split; field.
      * intros i k Hi Hk. change (n1 hot_opt) with 4%nat in *. cbn [rsum fst snd hot_eig].
        rewrite !hot_acoustic by lia. (destruct i as [|[|[|[|i]]]]; [| | | |lia]); (destruct k as [|[|[|[|k]]]]; [| | | |lia]); cbn [hot_xi]; field.
  - unfold hyperbolic. rewrite hot_p, hot_Er, hot_Ep. cbn. lra.
  - intros _. split; [cbn; lra|]. unfold temperature. rewrite hot_p. change (still 0%nat) with 1. rewrite hot_T. cbn. lra.
  - reflexivity.
  - cbn. lra.
  - change (still 0%nat) with 1. rewrite hot_cs. reflexivity.
  - exact IV.
  - intros x i Hi. cbn [rsum]. rewrite !hot_acoustic by lia. unfold x. (destruct i as [|[|[|[|i]]]]; [| | | |lia]); cbn [hot_xi]; field.
Qed.
(** and there the sound wave does change the density, so that the temperature asked for is missed *)
Example hot_missed sm : exists inverse qrsolve M, inverse_ok inverse /\ solve_ok qrsolve /\
  riemann_constraints hot_opt hot sm inverse qrsolve hot_eig still 1 = Ok M /\
  let m := mkmaterial hot false sm (fun _ _ => M) (fun Q _ => Q) in let x : vec := fun k => match k with O => 8 | 3%nat => 3 | _ => 0 end in
  ~ is_derive (fun t : R => apply_step hot_opt m M (fun j => t * x j) still 0%nat) 0 0.
Proof.
  destruct exact_routines as (inverse & qrsolve & IO & SO). exists inverse, qrsolve.
  destruct (hot_case sm) as (RG & HY & CD & TH & _ & _ & _ & EX). destruct RG as (PL & OK & HG & HB & HA & HP & EB).
  destruct (riemann_constraints hot_opt hot sm inverse qrsolve hot_eig still 1) as [M| | |] eqn:HM; try discriminate.
  exists M. split; [exact IO|]. split; [exact SO|]. split; [reflexivity|]. intros m x D.
  assert (XC : forall k, (n1 hot_opt <= k)%nat -> x k = 0) by (intros k Hk; change (n1 hot_opt) with 4%nat in Hk; unfold x; do 4 (destruct k as [|k]; [lia|]); reflexivity).
  destruct (CD TH) as (HV & HT).
  assert (D2 := proj2 (step_temperature hot_opt m inverse qrsolve hot_eig IO SO PL TH still OK HG HV HA EB 1 M HM x XC)).
  assert (Z : dir hot_opt M x 0%nat = 0) by (rewrite <- (is_derive_unique _ _ _ D2); exact (is_derive_unique _ _ _ D)).
  assert (NZ : exists k, (k < n1 hot_opt)%nat /\ x k <> 0) by (exists 0%nat; split; [cbn; lia|unfold x; lra]).
  assert (E := dir_eig hot_opt m inverse qrsolve hot_eig IO SO PL still OK HA HP EB 1 M HM x XC (16 / 3) EX NZ 0%nat ltac:(lia)).
  rewrite Z in E. change (n1 hot_opt) with 4%nat in E. cbn [rsum] in E. unfold Xi2, addblock, setblock in E. cbn -[c_h dTdp temperature_mg] in E.
  lra.
Qed.
