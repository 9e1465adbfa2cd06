(** The interface step: tractions, velocities and waves. *)
From Coq Require Import Reals ZArith Lra Psatz Lia FunctionalExtensionality.
From Coquelicot Require Import Coquelicot.
From Verif Require Import Base Options Sum Mat3 PhysModel PhysInst PhysSpec PhysProof PhysProof2 PhysProof5 PhysProps PhysProof7 WaveProps.
From Verif Require Import RiemannModel RConsModel RConsSpec RConsProof RConsProof2 RConsProof3 RConsProof4 RConsProof5.
From Verif Require EqModel EqSpec.
Open Scope R_scope.

Section Step.
Variable o : options.
Variable m : material.
Variable inverse : nat -> mat -> mat.
Variable qrsolve : nat -> mat -> mat -> mat.
Variable eigensolve : nat -> mat -> vec * mat.
Hypothesis INV : inverse_ok inverse.
Hypothesis SOL : solve_ok qrsolve.
Notation P := (mpar m).
Notation sm := (mix m).
Hypothesis PL : plain o P.
Variable Q : vec.
Notation n1 := (n1 o).
Notation r := (Q 0%nat).
Notation p := (pressure o P sm Q).
Notation X1 := (Xi1 o P r p Q 0).
Notation X2 := (Xi2 o P sm r p Q 0).
Notation Xi := (mm 5 X1 X2).
Notation l := (fst (eigensolve n1 Xi)).
Notation q := (snd (eigensolve n1 Xi)).
Hypothesis OK : eos_ok (prm P) r.
Hypothesis HG : Gamma_MG (prm P) r <> 0.
Hypothesis HB : b02 (prm P) <> 0.
Hypothesis HA : invertible 3 (get_A Q).
Hypothesis HP : THERMAL o = false -> invertible 3 (dsigmadA_dir P Q 0).
Hypothesis EB : eigenbasis n1 Xi l q.
Variable sgn : R.
Variable M : mat.
Hypothesis HM : riemann_constraints o P sm inverse qrsolve eigensolve Q sgn = Ok M.
Variable c : vec.
Hypothesis HC : forall k, (n1 <= k)%nat -> c k = 0.
Notation XI := (Xinv o P sm inverse eigensolve Q).
Lemma HR0 : r <> 0. Proof. assert (H : 0 < r) by apply OK. lra. Qed.
Lemma VIs : VISCOUS o = true. Proof. apply PL. Qed.

Definition dir : vec := matvec o M c.
Lemma dir_sum i : dir i = rsum n1 (fun j => M i j * c j).
Proof.
  unfold dir, matvec. assert (L : (n1 <= V o)%nat) by (unfold RiemannModel.n1, V; rewrite VIs; destruct (THERMAL o); cbn [b2n]; lia).
  replace (V o) with (n1 + (V o - n1))%nat by lia. rewrite rsum_split. rewrite (rsum_zero (V o - n1)); [ring|].
  intros k Hk. rewrite HC by lia. ring.
Qed.
Lemma step_moved t : apply_step o m M (fun j => t * c j) Q = moved o P sm Q dir t.
Proof.
  unfold apply_step, moved. f_equal. apply functional_extensionality. intro i. f_equal. unfold dir, matvec. rewrite <- rsum_scal. apply rsum_ext. intros; ring.
Qed.
Lemma dir_mid k : ((5 <= k < 11) \/ 11 + n1 <= k)%nat -> dir k = 0.
Proof.
  intros Hk. rewrite dir_sum. apply rsum_zero. intros j Hj. rewrite (M_mid o P sm inverse qrsolve eigensolve VIs Q sgn M HM k j Hk Hj). ring.
Qed.
Lemma dir_top i : (i < 5)%nat -> dir i = / r * rsum n1 (fun k => X2 i k * rsum n1 (fun j => XI k j * c j)).
Proof.
  intros Hi. rewrite dir_sum.
  rewrite (rsum_ext n1 _ (fun j => / r * (mm n1 X2 XI i j * c j))) by (intros j Hj; rewrite (M_top o P sm inverse qrsolve eigensolve INV SOL VIs Q HR0 HA HP EB sgn M HM i j Hi Hj); ring).
  rewrite rsum_scal. f_equal. exact (mm_assoc n1 n1 X2 XI (fun k _ => c k) i 0%nat).
Qed.
Lemma dir_rows i : (i < n1)%nat -> r * rsum 5 (fun j => X1 i j * dir j) = c i.
Proof.
  intros Hi. assert (N := HR0).
  rewrite (rsum_ext 5 _ (fun j => / r * (X1 i j * rsum n1 (fun k => X2 j k * rsum n1 (fun j => XI k j * c j))))) by (intros j Hj; rewrite dir_top by exact Hj; ring).
  rewrite rsum_scal. rewrite (Xi_vec o P sm Q (fun k => rsum n1 (fun j => XI k j * c j)) i).
  assert (E : rsum n1 (fun k => Xi i k * rsum n1 (fun j => XI k j * c j)) = c i)
    by exact (cancel_l n1 XI Xi (fun k _ => c k) i 0%nat (inv_sym _ _ _ (IX o P sm inverse eigensolve INV Q EB)) Hi).
  rewrite E. field. exact N.
Qed.
Lemma dir_Sigma i : (i < 3)%nat -> - (dsigmadrho P Q 0 i * dir 0%nat + sum3 (fun m => dsigmadA_dir P Q 0 i m * dir (2 + m)%nat)) + (if Nat.eqb i 0 then dir 1%nat else 0) = c i.
Proof.
  intros Hi. rewrite <- dir_rows by (unfold RiemannModel.n1; lia). unfold Xi1, setblock. rewrite VIs. assert (N := HR0). unfold sum3.
  destruct (THERMAL o); idx3 i; cbn [rsum Nat.leb Nat.ltb Nat.add Nat.sub Nat.eqb andb]; field; exact N.
Qed.
Lemma dir_T : THERMAL o = true -> dTdrho (prm P) r p * dir 0%nat + dTdp (prm P) r * dir 1%nat = c 3%nat.
Proof.
  intros T. rewrite <- (dir_rows 3) by (unfold RiemannModel.n1; rewrite T; cbn; lia). unfold Xi1, setblock. rewrite VIs, T. assert (N := HR0).
  cbn [rsum Nat.leb Nat.ltb Nat.add Nat.sub Nat.eqb andb]; field; exact N.
Qed.
Lemma step_traction i : (i < n1)%nat -> (i = 3%nat -> cv (prm P) <> 0 /\ Tref (prm P) = 0) ->
  is_derive (fun t : R => tractions o m (apply_step o m M (fun j => t * c j) Q) i) 0 (c i).
Proof.
  intros Hi HT. apply (is_derive_ext (fun t => tractions o m (moved o P sm Q dir t) i)); [intro t; rewrite step_moved; reflexivity|].
  unfold tractions. destruct (Nat.ltb_spec i 3) as [L|G].
  - rewrite <- dir_Sigma by exact L. apply (Sigma_step o P sm PL Q OK HG HB dir); [intros; apply dir_mid; lia|exact L].
  - assert (T : THERMAL o = true) by (unfold RiemannModel.n1 in Hi; destruct (THERMAL o); [reflexivity|cbn in Hi; lia]).
    unfold RiemannModel.n1 in Hi. rewrite T in Hi. cbn in Hi. replace i with 3%nat by lia. rewrite <- dir_T by exact T. destruct (HT ltac:(lia)) as (C & T0).
    apply (T_step o P sm PL Q OK HG dir C T0).
Qed.
Lemma step_velocity t i : (i < n1)%nat -> r + t * dir 0%nat <> 0 -> let Q' := apply_step o m M (fun j => t * c j) Q in
  side_velocity Q' i = side_velocity Q i + t * rsum n1 (fun j => M (11 + i)%nat j * c j).
Proof.
  intros Hi N. cbv zeta. rewrite step_moved, <- dir_sum. unfold side_velocity. destruct (Nat.ltb_spec i 3) as [L|G].
  - apply (moved_v o P sm PL Q OK dir t i L N).
  - assert (T : THERMAL o = true) by (unfold RiemannModel.n1 in Hi; destruct (THERMAL o); [reflexivity|cbn in Hi; lia]).
    unfold RiemannModel.n1 in Hi. rewrite T in Hi. cbn in Hi. replace i with 3%nat by lia. exact (moved_J o P sm PL Q OK dir t T N).
Qed.

(** ** eigenvectors *)
Variable lam : R.
Hypothesis EX : forall i, (i < n1)%nat -> rsum n1 (fun j => Xi i j * c j) = lam * c i.
Lemma vel_eig i : (i < n1)%nat -> rsum n1 (fun j => M (11 + i)%nat j * c j) = - sgn / r * sqrt (/ lam) * c i.
Proof.
  intros Hi. assert (N := HR0).
  pose proof (M_vel o P sm inverse qrsolve eigensolve INV SOL VIs Q HR0 HA HP EB sgn M HM) as MV.
  pose proof (Y0_eig o P sm inverse eigensolve INV Q EB lam c EX i Hi) as Y. cbv beta in Y.
  transitivity (- sgn / r * (sqrt (/ lam) * c i)); [rewrite <- Y, <- rsum_scal|ring]. apply rsum_ext. intros j Hj. rewrite MV by assumption. field. exact N.
Qed.
Hypothesis NZ : exists k, (k < n1)%nat /\ c k <> 0.
Lemma LP : 0 < lam. Proof. exact (lam_pos o P sm inverse eigensolve INV Q EB lam c EX NZ). Qed.
Lemma dir_eig i : (i < 5)%nat -> dir i = rsum n1 (fun k => X2 i k * (c k / (r * lam))).
Proof.
  intros Hi. assert (N := HR0). assert (L := LP). rewrite dir_top by exact Hi. rewrite <- rsum_scal. apply rsum_ext. intros k Hk.
  rewrite (XI_eig o P sm inverse eigensolve INV Q EB lam c EX k Hk). field. split; [lra|exact N].
Qed.
Hypothesis TH : THERMAL o = false.
Hypothesis SG : sgn * sgn = 1.
Hypothesis HY : hyperbolic o P sm Q.
Variables (sr : mat -> R) (ea : EqModel.mat -> vec -> vec) (src : vec -> vec).
Notation s := (- sgn * sqrt lam).
Notation u := (fun k => c k / (r * lam)).
Lemma dir_v i : (i < 3)%nat -> dir (11 + i)%nat = s * u i.
Proof.
  intros Hi. rewrite dir_sum, vel_eig by (rewrite (n1_3 o TH); exact Hi). assert (N := HR0). assert (L := LP).
  rewrite <- inv_sqrt by exact L. assert (S0 : 0 < sqrt lam) by (apply sqrt_lt_R0, L). set (z := sqrt lam) in *.
  replace (c i / (r * lam)) with (c i / (r * (z * z))) by (unfold z; rewrite sqrt_sqrt by lra; reflexivity). field. split; first [exact N|lra].
Qed.
Lemma step_wave : exists w : vec, (forall k, is_derive (fun t : R => apply_step o m M (fun j => t * c j) Q k) 0 (w k)) /\
  (exists k, (k < V o)%nat /\ w k <> 0) /\
  forall i, (i < V o)%nat -> rsum (V o) (fun j => EqModel.system_matrix o (gpr o P sm sr ea src) Q 0 i j * w j) = (Q 2%nat / r - sgn * sqrt lam) * w i.
Proof.
  assert (N := HR0). assert (L := LP). assert (N3 := n1_3 o TH).
  assert (DZ : forall k, (5 <= k < 11)%nat -> dir k = 0) by (intros; apply dir_mid; lia).
  assert (DZ' : forall k, (14 <= k)%nat -> dir k = 0) by (intros; apply dir_mid; lia).
  set (W := w o P sm Q dir).
  assert (SS : s * s = lam) by (transitivity (sgn * sgn * (sqrt lam * sqrt lam)); [ring|rewrite SG, sqrt_sqrt by lra; ring]).
  assert (UU : forall i, (i < 3)%nat -> uu Q W i = s * u i) by (intros i Hi; unfold W; rewrite (Wu o P sm PL Q OK dir i Hi); apply dir_v, Hi).
  assert (X2r : forall i, (i < 5)%nat -> s * dir i = sum3 (fun k => X2 i k * uu Q W k)).
  { intros i Hi. rewrite dir_eig by exact Hi. rewrite N3. unfold sum3. rewrite !UU by lia. cbn [rsum]. ring. }
  exists W. split; [|split].
  - intro k. apply (is_derive_ext (fun t => moved o P sm Q dir t k)); [intro t; rewrite step_moved; reflexivity|].
    exact (w_ok o P sm PL TH Q OK HG dir DZ DZ' k).
  - destruct NZ as (k & Hk & Ck). rewrite N3 in Hk.
    assert (V14 : (14 <= V o)%nat) by exact (V_ge o P PL 0 ltac:(lia)).
    destruct (Req_EM_T (W 0%nat) 0) as [Z|Z]; [|exists 0%nat; split; [lia|exact Z]].
    exists (2 + k)%nat. split; [lia|]. intro Z2.
    assert (E := UU k Hk). unfold uu in E. rewrite Z, Z2 in E.
    assert (S0 : s <> 0) by (intro S0; rewrite S0 in SS; lra).
    assert (U0 : c k / (r * lam) = 0).
    { apply Rmult_eq_reg_l with s; [|exact S0]. rewrite <- E. field. exact N. }
    apply Ck. transitivity (c k / (r * lam) * (r * lam)); [field; split; [lra|exact N]|]. rewrite U0. ring.
  - intros i Hi. replace (Q 2%nat / r - sgn * sqrt lam) with (vv Q 0 + s) by (unfold vv; cbn [Nat.add]; ring).
    apply (rev_eigen o P sm sr ea src PL TH Q W OK HG HB HY s); [| | | | | |exact Hi].
    + unfold W at 1. rewrite (W0 o P sm PL Q dir). rewrite X2r by lia. unfold sum3. rewrite !(X2_0 o P sm VIs Q HP). cbn [Nat.eqb]. ring.
    + intros k Hk. rewrite UU by exact Hk. unfold W. rewrite (Wp o P sm PL TH Q OK HG dir DZ DZ'), (Ws o P sm PL Q dir DZ k Hk).
      transitivity (c k); [|rewrite <- (dir_Sigma k Hk); unfold delta; destruct (Nat.eqb k 0); ring].
      transitivity (s * s * r * (c k / (r * lam))); [ring|]. rewrite SS. field. split; [lra|exact N].
    + intros a b Ha Hb. unfold W at 1. rewrite (WA o P sm PL Q dir DZ a b Ha Hb). unfold delta. destruct (Nat.eqb b 0); [|ring].
      rewrite X2r by lia. unfold sum3, mvec, sum3. rewrite !(X2_A o P sm VIs Q HP) by lia. ring.
    + unfold W at 1. rewrite (Wp o P sm PL TH Q OK HG dir DZ DZ'). rewrite X2r by lia. unfold Xi2, addblock, setblock. rewrite VIs, TH. unfold sum3. cbn [Nat.leb Nat.ltb Nat.add Nat.sub andb]. ring.
    + intros MU. unfold W at 1. unfold w. rewrite (is_derive_unique _ _ _ (w_mV o P sm PL TH Q dir DZ' MU)).
      transitivity (Q (mV o) / r * (s * dir 0%nat)); [ring|]. rewrite X2r by lia. unfold sum3. rewrite !(X2_0 o P sm VIs Q HP). cbn [Nat.eqb]. field. exact N.
    + intros k Hk. assert (V1 : V o = (14 + b2n (MULTI o) + LSET o)%nat) by (unfold V; rewrite VIs, TH; cbn [b2n]; lia).
      assert (M14 : mV o = 14%nat) by (unfold mV; rewrite VIs, TH; reflexivity).
      assert (K14 : (14 <= k)%nat) by lia.
      assert (KM : MULTI o = true -> k <> mV o) by (intros MU; rewrite MU in V1; cbn [b2n] in V1; lia).
      unfold W, w. rewrite (is_derive_unique _ _ _ (w_rest o P sm TH Q dir DZ' k K14 KM)). ring.
Qed.
End Step.
