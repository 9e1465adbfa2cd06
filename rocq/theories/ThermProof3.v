(** The interface step with heat conduction: temperature and waves. *)
From Coq Require Import Reals ZArith Lra Psatz Lia FunctionalExtensionality.
From Coquelicot Require Import Coquelicot.
From Verif Require Import Base Options Sum Mat3 PhysModel PhysInst PhysSpec PhysProof PhysProof2 PhysProof5 PhysProps PhysProof7 WaveProps.
From Verif Require Import RiemannModel RConsModel RConsSpec RConsProof RConsProof2 RConsProof3 RConsProof4 RConsProof5 RConsProof6 ThermProof ThermProof2.
From Verif Require EqModel EqSpec.
Open Scope R_scope.

Lemma T_step_heat o P sm (PL : plain o P) (Q : vec) (OK : eos_ok (prm P) (Q 0%nat)) (HG : Gamma_MG (prm P) (Q 0%nat) <> 0) (d : vec) : cv (prm P) <> 0 ->
  is_derive (fun t : R => temperature o P sm (moved o P sm Q d t)) 0
    (dTdrho (prm P) (Q 0%nat) (pressure o P sm Q) * d 0%nat + dTdp (prm P) (Q 0%nat) * d 1%nat
     + Tref (prm P) * (Gamma_MG (prm P) (Q 0%nat) / Q 0%nat * phi (prm P) (Q 0%nat)) * d 0%nat).
Proof.
  intros HC. set (r := Q 0%nat) in *. set (p := pressure o P sm Q).
  apply (is_derive_ext_loc (fun t : R => temperature_mg (prm P) (r + t * d 0%nat) (p + t * d 1%nat))).
  - eapply filter_imp; [|exact (near_ok P Q OK HG d)]. intros t (N & G). unfold temperature.
    rewrite (moved_p o P sm PL Q d t), (moved_0 o P sm PL) by assumption. reflexivity.
  - unfold temperature_mg. assert (R0 : 0 < r) by apply OK. assert (A := dp_ref_ok _ _ OK). assert (B := dphi_ok _ _ OK). assert (C := dGamma_ok _ _ OK).
    auto_derive.
    + rewrite !Rmult_0_l, !Rplus_0_r. split; [eexists; exact B|]. split; [eexists; exact A|]. split; [eexists; exact C|]. split; [|exact I].
      repeat apply Rmult_integral_contrapositive_currified; try assumption; lra.
    + rewrite !Rmult_0_l, !Rplus_0_r. change (fun x => p_ref (prm P) x) with (p_ref (prm P)). change (fun x => Gamma_MG (prm P) x) with (Gamma_MG (prm P)). change (fun x => phi (prm P) x) with (phi (prm P)).
      rewrite (is_derive_unique _ _ _ A), (is_derive_unique _ _ _ B), (is_derive_unique _ _ _ C). unfold dTdrho, dTdp, dedp. field. repeat split; try assumption; lra.
Qed.

Section Step.
Variable o : options.
Variable m : material.
Variable inverse : nat -> mat -> mat.
Variable qrsolve : nat -> mat -> mat -> mat.
Variable eigensolve : nat -> mat -> vec * mat.
Hypothesis INV : inverse_ok inverse.
Hypothesis SOL : solve_ok qrsolve.
Notation P := (mpar m).
Notation sm := (mix m).
Hypothesis PL : plain o P.
Hypothesis TH : THERMAL o = true.
Variable Q : vec.
Notation n1 := (n1 o).
Notation r := (Q 0%nat).
Notation p := (pressure o P sm Q).
Notation T0 := (temperature_mg (prm P) r p).
Notation X1 := (Xi1 o P r p Q 0).
Notation X2 := (Xi2 o P sm r p Q 0).
Notation Xi := (mm 5 X1 X2).
Notation l := (fst (eigensolve n1 Xi)).
Notation q := (snd (eigensolve n1 Xi)).
Hypothesis OK : eos_ok (prm P) r.
Hypothesis HG : Gamma_MG (prm P) r <> 0.
Hypothesis HB : b02 (prm P) <> 0.
Hypothesis HV : cv (prm P) <> 0.
Hypothesis HA : invertible 3 (get_A Q).
Hypothesis EB : eigenbasis n1 Xi l q.
Variable sgn : R.
Variable M : mat.
Hypothesis HM : riemann_constraints o P sm inverse qrsolve eigensolve Q sgn = Ok M.
Variable c : vec.
Hypothesis HC : forall k, (n1 <= k)%nat -> c k = 0.
Notation dir := (dir o M c).
Lemma HPt : THERMAL o = false -> invertible 3 (dsigmadA_dir P Q 0). Proof. rewrite TH. discriminate. Qed.
Lemma N4 : n1 = 4%nat. Proof. unfold RiemannModel.n1. rewrite TH. reflexivity. Qed.

Lemma step_temperature : is_derive (fun t : R => temperature o P sm (apply_step o m M (fun j => t * c j) Q)) 0
  (c 3%nat + Tref (prm P) * (Gamma_MG (prm P) r / r * phi (prm P) r) * dir 0%nat) /\
  is_derive (fun t : R => apply_step o m M (fun j => t * c j) Q 0%nat) 0 (dir 0%nat).
Proof.
  split.
  - apply (is_derive_ext (fun t => temperature o P sm (moved o P sm Q dir t))); [intro t; rewrite step_moved; reflexivity|].
    rewrite <- (dir_T o m inverse qrsolve eigensolve INV SOL PL Q OK HA HPt EB sgn M HM c HC TH). exact (T_step_heat o P sm PL Q OK HG dir HV).
  - apply (is_derive_ext (fun t => moved o P sm Q dir t 0%nat)); [intro t; rewrite step_moved; reflexivity|]. exact (w_0 o P sm PL Q dir).
Qed.

Variable lam : R.
Hypothesis EX : forall i, (i < n1)%nat -> rsum n1 (fun j => Xi i j * c j) = lam * c i.
Hypothesis NZ : exists k, (k < n1)%nat /\ c k <> 0.
Hypothesis SG : sgn * sgn = 1.
Hypothesis HY : hyperbolic o P sm Q.
Hypothesis HT : 0 <= ca2 (prm P) * T0 / cv (prm P).
Variables (sr : mat -> R) (ea : EqModel.mat -> vec -> vec) (src : vec -> vec).
Notation s := (- sgn * sqrt lam).
Notation u := (fun k => c k / (r * lam)).
Lemma lam_pos_heat : 0 < lam. Proof. exact (LP o m inverse eigensolve INV Q EB c lam EX NZ). Qed.
Lemma dir_y i : (i < 4)%nat -> dir (11 + i)%nat = s * u i.
Proof.
  intros Hi. rewrite (dir_sum o m PL Q HPt M c HC), (vel_eig o m inverse qrsolve eigensolve INV SOL PL Q OK HA HPt EB sgn M HM c lam EX) by (rewrite N4; exact Hi).
  assert (N : 0 < r) by apply OK. assert (L := lam_pos_heat).
  rewrite <- inv_sqrt by exact L. assert (S0 : 0 < sqrt lam) by (apply sqrt_lt_R0, L). set (z := sqrt lam) in *.
  replace (c i / (r * lam)) with (c i / (r * (z * z))) by (unfold z; rewrite sqrt_sqrt by lra; reflexivity). field. split; lra.
Qed.
Lemma step_wave_heat : exists w : vec, (forall k, is_derive (fun t : R => apply_step o m M (fun j => t * c j) Q k) 0 (w k)) /\
  (exists k, (k < V o)%nat /\ w k <> 0) /\
  forall i, (i < V o)%nat -> rsum (V o) (fun j => EqModel.system_matrix o (gpr o P sm sr ea src) Q 0 i j * w j) = (Q 2%nat / r - sgn * sqrt lam) * w i.
Proof.
  assert (R0 : 0 < r) by apply OK. assert (N : r <> 0) by lra. assert (L := lam_pos_heat). assert (VI0 : VISCOUS o = true) by apply PL.
  assert (DZ : forall k, (5 <= k < 11)%nat -> dir k = 0) by (intros k Hk; apply (dir_mid o m inverse qrsolve eigensolve PL Q HPt sgn M HM c HC); lia).
  assert (DZ' : forall k, (15 <= k)%nat -> dir k = 0) by (intros k Hk; apply (dir_mid o m inverse qrsolve eigensolve PL Q HPt sgn M HM c HC); rewrite N4; lia).
  set (W := w o P sm Q dir).
  assert (SS : s * s = lam) by (transitivity (sgn * sgn * (sqrt lam * sqrt lam)); [ring|rewrite SG, sqrt_sqrt by lra; ring]).
  assert (UU : forall i, (i < 3)%nat -> uu Q W i = s * u i) by (intros i Hi; unfold W; rewrite (Wu o P sm PL Q OK dir i Hi); apply dir_y; lia).
  assert (JU : jj Q W 0%nat = s * u 3%nat) by (unfold W; rewrite (WtJ o P sm PL TH Q OK dir 0%nat ltac:(lia)); exact (dir_y 3 ltac:(lia))).
  assert (JZ : forall i, (1 <= i < 3)%nat -> jj Q W i = 0) by (intros i Hi; unfold W; rewrite (WtJ o P sm PL TH Q OK dir i ltac:(lia)); apply DZ'; lia).
  assert (X2r : forall i, (i < 5)%nat -> s * dir i = sum3 (fun k => X2 i k * uu Q W k) + X2 i 3%nat * jj Q W 0%nat).
  { intros i Hi. rewrite (dir_eig o m inverse qrsolve eigensolve INV SOL PL Q OK HA HPt EB sgn M HM c HC lam EX NZ) by exact Hi.
    rewrite N4. unfold sum3. rewrite !UU, JU by lia. cbn [rsum]. ring. }
  assert (Cw : forall k, s * (r * (s * u k)) = c k) by (intro k; transitivity (s * s * r * (c k / (r * lam))); [ring|]; rewrite SS; field; split; [lra|exact N]).
  exists W. split; [|split].
  - intro k. apply (is_derive_ext (fun t => moved o P sm Q dir t k)); [intro t; rewrite step_moved; reflexivity|].
    exact (wt_ok o P sm PL TH Q OK HG dir DZ DZ' k).
  - destruct NZ as (k & Hk & Ck). rewrite N4 in Hk.
    assert (V17 : (17 <= V o)%nat) by exact (ThermProof.V_ge o P PL TH 0 ltac:(lia)).
    assert (S0 : s <> 0) by (intro S0; rewrite S0 in SS; lra).
    destruct (Req_EM_T (W 0%nat) 0) as [Z|Z]; [|exists 0%nat; split; [lia|exact Z]].
    destruct (le_lt_dec 3 k) as [G3|L3].
    + assert (K3 : k = 3%nat) by lia. exists 14%nat. split; [lia|]. intro Z2. apply Ck. rewrite <- Cw, K3, <- JU. unfold jj. rewrite Z. cbn [Nat.add]. rewrite Z2. field. exact N.
    + exists (2 + k)%nat. split; [lia|]. intro Z2. apply Ck. rewrite <- Cw, <- UU by exact L3. unfold uu. rewrite Z, Z2. field. exact N.
  - intros i Hi. replace (Q 2%nat / r - sgn * sqrt lam) with (vv Q 0 + s) by (unfold vv; cbn [Nat.add]; ring).
    apply (ThermProof2.rev_eigen o P sm sr ea src PL TH Q W OK HG HB HV HY HT s); [| | | | | | |exact Hi].
    + unfold W at 1. rewrite (W0 o P sm PL Q dir). rewrite X2r by lia. unfold sum3. rewrite !(X2_0 o P sm VI0 Q HPt). cbn [Nat.eqb]. ring.
    + intros k Hk. rewrite UU by exact Hk. unfold W. rewrite (Wtp o P sm PL TH Q OK HG dir DZ DZ'), (Ws o P sm PL Q dir DZ k Hk).
      rewrite Cw. rewrite <- (dir_Sigma o m inverse qrsolve eigensolve INV SOL PL Q OK HA HPt EB sgn M HM c HC k Hk); unfold delta; destruct (Nat.eqb k 0); ring.
    + intros a b Ha Hb. unfold W at 1. rewrite (WA o P sm PL Q dir DZ a b Ha Hb). unfold delta. destruct (Nat.eqb b 0); [|ring].
      rewrite X2r by lia. unfold sum3, mvec, sum3. rewrite !(X2_A o P sm VI0 Q HPt), (X2_A3 o P sm VI0 Q a TH Ha) by lia. ring.
    + intros k Hk. destruct (Nat.eq_dec k 0) as [-> |NK].
      * rewrite JU, Cw. unfold tt_, W. rewrite (Wtp o P sm PL TH Q OK HG dir DZ DZ'), (W0 o P sm PL Q dir).
        rewrite (dir_T o m inverse qrsolve eigensolve INV SOL PL Q OK HA HPt EB sgn M HM c HC TH). unfold delta. cbn [Nat.eqb]. ring.
      * rewrite JZ by lia. unfold delta. rewrite (proj2 (Nat.eqb_neq _ _) NK). ring.
    + unfold W at 1. rewrite (Wtp o P sm PL TH Q OK HG dir DZ DZ'). rewrite X2r by lia. unfold Xi2, addblock, setblock. rewrite VI0, TH. unfold sum3. cbn [Nat.leb Nat.ltb Nat.add Nat.sub andb]. ring.
    + intros MU. unfold W at 1. unfold w. rewrite (is_derive_unique _ _ _ (wt_mV o P sm PL TH Q dir DZ' MU)).
      transitivity (Q (mV o) / r * (s * dir 0%nat)); [ring|]. rewrite X2r by lia. unfold sum3. rewrite !(X2_0 o P sm VI0 Q HPt). cbn [Nat.eqb]. field. exact N.
    + intros k Hk. assert (V1 : V o = (17 + b2n (MULTI o) + LSET o)%nat) by (unfold V; rewrite VI0, TH; cbn [b2n]; lia).
      assert (M17 : mV o = 17%nat) by (unfold mV; rewrite VI0, TH; reflexivity).
      assert (K17 : (17 <= k)%nat) by lia.
      assert (KM : MULTI o = true -> k <> mV o) by (intros MU; rewrite MU in V1; cbn [b2n] in V1; lia).
      unfold W, w. rewrite (is_derive_unique _ _ _ (wt_rest o P sm TH Q dir DZ' k K17 KM)). ring.
Qed.
End Step.
