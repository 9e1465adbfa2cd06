(** Property C87: the matrix of eigenvectors the interface solver starts from. *)
From Coq Require Import Reals ZArith Lra Psatz Lia FunctionalExtensionality.
From Coquelicot Require Import Coquelicot.
From Verif Require Import Base Options Sum Mat3 PhysModel PhysInst PhysSpec PhysProof2 PhysProof5 PhysProps PhysProof7 WaveProps.
From Verif Require Import RiemannModel RConsModel RConsSpec RConsProof RConsProof3 RConsProps EigProof EigProof2.
From Verif Require EqModel.
Open Scope R_scope.

(** the conserved variables start to move with velocity [w] when the primitive ones move along [d] *)
Definition moves o P sm (Q d w : vec) : Prop :=
  forall k, is_derive (fun t : R => Pvec_to_Cvec o P (fun i => Cvec_to_Pvec o P sm Q i + t * d i) k) 0 (w k).
(** [d], a direction in the primitive variables, is a wave of the system along the first axis, with speed [c] *)
Definition wave o P sm sr ea src (Q d : vec) (c : R) : Prop :=
  exists w, moves o P sm Q d w /\
  forall i, (i < V o)%nat -> rsum (V o) (fun j => EqModel.system_matrix o (gpr o P sm sr ea src) Q 0 i j * w j) = c * w i.
Lemma wave_g o P sm sr ea src Q d c : plain o P -> THERMAL o = false -> eos_ok (prm P) (Q 0%nat) -> Gamma_MG (prm P) (Q 0%nat) <> 0 ->
  (wave o P sm sr ea src Q d c <->
   forall i, (i < V o)%nat -> rsum (V o) (fun j => EqModel.system_matrix o (gpr o P sm sr ea src) Q 0 i j * g o P sm Q d j) = c * g o P sm Q d i).
Proof.
  intros PL TH OK HG.
  assert (MV : moves o P sm Q d (g o P sm Q d)).
  { intro k. apply (is_derive_ext (fun t => moved o P sm Q d t k)); [|exact (g_ok o P sm PL TH Q OK HG d k)].
    intro t. unfold moved. f_equal. apply functional_extensionality. intro i. ring. }
  split.
  - intros (w & HW & E) i Hi. assert (U : w = g o P sm Q d); [|rewrite <- U; apply E, Hi]. apply functional_extensionality. intro k.
    rewrite <- (is_derive_unique _ _ _ (HW k)). exact (is_derive_unique _ _ _ (MV k)).
  - intros E. exists (g o P sm Q d). split; assumption.
Qed.

(** the speeds: three waves running with the flow, three against it, everything else is carried along *)
Definition wave_speed (v : R) (l : vec) (j : nat) : R := if Nat.ltb j 3 then v + sqrt (l j) else if Nat.ltb j 6 then v - sqrt (l (j - 3)%nat) else v.

(** The columns are waves of the system, and independent, if the shear modulus is that of the reference density. Not covered: heat conduction. *)
Theorem eigenvectors_partial o P sm inverse eigensolve Q M sr ea src : THERMAL o = false ->
  inverse_ok inverse -> regular o P sm eigensolve Q -> hyperbolic o P sm Q -> c_s2 (prm P) (Q 0%nat) = b02 (prm P) ->
  eigen o P sm inverse eigensolve Q 0 = Ok M ->
  (forall j, (j < V o)%nat -> wave o P sm sr ea src Q (fun i => M i j)
     (wave_speed (Q 2%nat / Q 0%nat) (fst (eigensolve 3%nat (thermo_acoustic_tensor o P sm Q 0))) j)) /\
  (forall c : vec, (forall i, (i < V o)%nat -> rsum (V o) (fun j => M i j * c j) = 0) -> forall j, (j < V o)%nat -> c j = 0).
Proof.
  intros TH IO (PL & OK & HG & HB & HA & HP & EB) HY HS HM. specialize (HP TH).
  assert (N3 : n1 o = 3%nat) by (unfold n1; rewrite TH; reflexivity). cbv zeta in EB. rewrite N3 in EB. split.
  - intros j Hj. apply wave_g; try assumption. unfold wave_speed.
    destruct (Nat.ltb_spec j 3) as [L|G]; [exact (proj1 (col_sound o P sm inverse eigensolve PL TH Q OK HG HB HP EB HY M HM sr ea src j L))|].
    destruct (Nat.ltb_spec j 6) as [L|G6].
    + assert (X := proj2 (col_sound o P sm inverse eigensolve PL TH Q OK HG HB HP EB HY M HM sr ea src (j - 3) ltac:(lia))).
      replace (3 + (j - 3))%nat with j in X by lia. exact X.
    + exact (col_contact o P sm inverse eigensolve IO PL TH Q OK HG HB HP HY M HM sr ea src j G6 (fun _ => HS)).
  - intros c Hc. exact (cols_independent o P sm inverse eigensolve IO PL TH Q OK HB HP EB M HM c HS Hc).
Qed.
Print Assumptions eigenvectors_partial.
(** Whatever the shear modulus, all but the columns of the density and the pressure are waves. *)
Theorem eigenvectors_acoustic_partial o P sm inverse eigensolve Q M sr ea src j : THERMAL o = false ->
  inverse_ok inverse -> regular o P sm eigensolve Q -> hyperbolic o P sm Q -> eigen o P sm inverse eigensolve Q 0 = Ok M ->
  (j < V o)%nat -> j <> 6%nat -> j <> 7%nat -> wave o P sm sr ea src Q (fun i => M i j)
     (wave_speed (Q 2%nat / Q 0%nat) (fst (eigensolve 3%nat (thermo_acoustic_tensor o P sm Q 0))) j).
Proof.
  intros TH IO (PL & OK & HG & HB & HA & HP & EB) HY HM Hj N6 N7. specialize (HP TH).
  assert (N3 : n1 o = 3%nat) by (unfold n1; rewrite TH; reflexivity). cbv zeta in EB. rewrite N3 in EB.
  apply wave_g; try assumption. unfold wave_speed.
  destruct (Nat.ltb_spec j 3) as [L|G]; [exact (proj1 (col_sound o P sm inverse eigensolve PL TH Q OK HG HB HP EB HY M HM sr ea src j L))|].
  destruct (Nat.ltb_spec j 6) as [L|G6].
  - assert (X := proj2 (col_sound o P sm inverse eigensolve PL TH Q OK HG HB HP EB HY M HM sr ea src (j - 3) ltac:(lia))).
    replace (3 + (j - 3))%nat with j in X by lia. exact X.
  - apply (col_contact o P sm inverse eigensolve IO PL TH Q OK HG HB HP HY M HM sr ea src j G6). lia.
Qed.
Print Assumptions eigenvectors_acoustic_partial.

(** ** non-vacuity *)
Example eigenvectors_case sm inverse : exists M, eigen shipped Pd sm inverse still_eig still 0 = Ok M /\ THERMAL shipped = false /\
  regular shipped Pd sm still_eig still /\ hyperbolic shipped Pd sm still /\ c_s2 (prm Pd) (still 0%nat) = b02 (prm Pd).
Proof.
  destruct (regular_case sm) as (RG & HY & _). eexists. split; [unfold eigen; reflexivity|]. split; [reflexivity|]. split; [exact RG|]. split; [exact HY|].
  change (still 0%nat) with 1. rewrite still_cs. reflexivity.
Qed.

(** ** and when the shear modulus depends on the density *)
(** eigenvecs.cpp 25-31 passes b02 where the derivative of the stress takes the squared shear speed at the actual density. At half the reference density these differ. *)
Definition soft : par := let MP := mkparams STIFFENED_GAS 2 300 1 1 2 1 3 1 1 (7 / 5) 1 1 2 3 2 1 1 1 1 1 1 in mkpar MP false false false false (fun _ => 0) MP (-1) 0.
Lemma soft_cs : c_s2 (prm soft) 1 = 1. Proof. unfold c_s2. cbn. rewrite Rpower_1 by lra. field. Qed.
Lemma soft_p sm : pressure shipped soft sm still = 1.
Proof.
  unfold pressure, internal_energy. cbn [PMULTI soft VISCOUS THERMAL shipped REACTION]. replace (Z.ltb (-1) (-1)) with false by reflexivity.
  unfold E_2A. rewrite still_dev. unfold E_3, dot3, sum3, get_rhov, pressure_mg, e_ref, p_ref, Gamma_MG, still. cbn. field.
Qed.
Lemma soft_Er sm : dEdrho shipped soft sm still = - 6.
Proof. unfold dEdrho. cbn [PMULTI soft]. rewrite soft_p, still_dev. unfold dedrho, de_ref, dp_ref, dGamma_MG, p_ref, Gamma_MG, still. cbn. field. Qed.
Lemma soft_Ep sm : dEdp shipped soft sm still = 5 / 2. Proof. unfold dEdp, dedp, Gamma_MG. cbn. field. Qed.
Lemma soft_s d i : (i < 3)%nat -> sigma_col soft still d i = 0.
Proof. intros Hi. unfold sigma_col, mvec, mscal, mtr, dEdA_s, mscal, sum3. rewrite !still_dG by lia. ring. Qed.
Lemma soft_dir a b : (a < 3)%nat -> (b < 3)%nat -> dsigmadA_dir soft still 0 a b = if Nat.eqb a b then (if Nat.eqb a 0 then - (4 / 3) else -1) else 0.
Proof.
  intros Ha Hb. unfold dsigmadA_dir. cbv zeta. change (mmul (mtr (get_A still)) (get_A still)) with (gram (get_A still)).
  rewrite still_dG, !still_G by lia. change (still 0%nat) with 1. rewrite soft_cs. unfold get_A, still, delta. idx3 a; idx3 b; cbn; field.
Qed.
Lemma soft_acoustic sm i j : (i < 3)%nat -> (j < 3)%nat ->
  thermo_acoustic_tensor shipped soft sm still 0 i j = if Nat.eqb i j then (if Nat.eqb i 0 then 62 / 15 else 1) else 0.
Proof.
  intros Hi Hj.
  assert (C0 : c_0 shipped soft sm still * c_0 shipped soft sm still = 14 / 5).
  { unfold c_0. rewrite sqrt_sqrt; rewrite soft_p, soft_Er, soft_Ep; unfold still; [field|lra]. }
  assert (SR : forall a, (a < 3)%nat -> dsigmadrho soft still 0 a = 0) by (intros a Ha; unfold dsigmadrho; rewrite soft_s by exact Ha; ring).
  unfold thermo_acoustic_tensor, Xi1, Xi2, addblock, setblock. cbv zeta. cbn [VISCOUS THERMAL shipped].
  idx3 i; idx3 j; cbn [rsum Nat.leb Nat.ltb Nat.add Nat.sub Nat.eqb andb]; rewrite ?soft_dir, ?SR, ?soft_s by lia; cbn [Nat.eqb]; change (still 0%nat) with 1;
    unfold get_A; cbn [Nat.add Nat.mul still]; try (field; fail);
    match goal with |- context [1 * ?c * ?c] => replace (1 * c * c) with (14 / 5) by (rewrite <- C0; ring) end; field.
Qed.
Lemma soft_plain : plain shipped soft. Proof. repeat split; cbn; try reflexivity; lia. Qed.
Lemma soft_regular sm : regular shipped soft sm still_eig still /\ hyperbolic shipped soft sm still.
Proof.
  split.
  - split; [exact soft_plain|]. split; [repeat split; cbn; lra|]. split; [cbn; lra|]. split; [cbn; lra|]. split; [|split].
    + exists eye. apply (inv_ext 3 eye); [|apply eye_inv]. intros i j Hi Hj. unfold eye, get_A, still. idx3 i; idx3 j; reflexivity.
    + intros _. exists (fun i j => if Nat.eqb i j then (if Nat.eqb i 0 then - (3 / 4) else -1) else 0).
      intros i j Hi Hj. unfold mm, eye. cbn [rsum]. rewrite !soft_dir by lia. idx3 i; idx3 j; cbn [Nat.eqb]; split; field.
    + split; [|split].
      * intros k Hk. cbn [fst still_eig]. destruct (Nat.eqb k 0); lra.
      * exists eye. apply eye_inv.
      * intros i k Hi Hk. change (n1 shipped) with 3%nat in *. cbn [fst snd still_eig]. cbn [rsum]. rewrite !soft_acoustic by lia. unfold eye. idx3 i; idx3 k; cbn [Nat.eqb]; field.
  - unfold hyperbolic. rewrite soft_p, soft_Er, soft_Ep. cbn. lra.
Qed.
Theorem eigenvectors_refuted sm : exists P Q eigensolve, regular shipped P sm eigensolve Q /\ hyperbolic shipped P sm Q /\
  forall inverse sr ea src, inverse_ok inverse -> exists M, eigen shipped P sm inverse eigensolve Q 0 = Ok M /\
    exists j, (j < V shipped)%nat /\ forall c, ~ wave shipped P sm sr ea src Q (fun i => M i j) c.
Proof.
  exists soft, still, still_eig. destruct (soft_regular sm) as (RG & HY). split; [exact RG|]. split; [exact HY|].
  intros inverse sr ea src IO. destruct (eigen shipped soft sm inverse still_eig still 0) as [M| | |] eqn:EM; try discriminate.
  exists M. split; [reflexivity|]. exists 7%nat. split; [cbn; lia|]. intros c W.
  destruct RG as (PL & OK & HG & HB & HA & HP & EB). pose proof (proj1 (wave_g shipped soft sm sr ea src still (fun i => M i 7%nat) c PL eq_refl OK HG) W) as W'.
  refine (col_7_wrong shipped soft sm inverse still_eig IO PL eq_refl still OK HG HB (HP eq_refl) M EM sr ea src c _ W').
  change (still 0%nat) with 1. rewrite soft_cs. cbn. lra.
Qed.
Print Assumptions eigenvectors_refuted.
