(** Properties C55 - C58 and C67: rotations, interface conditions and the star state iteration. *)
From Coq Require Import Reals ZArith Lra Psatz Lia List.
Import ListNotations.
From Verif Require Import Base Options Sum Mat3 PhysModel PhysInst PhysSpec PhysProof2 RiemannModel RiemannProof RiemannProof2 RiemannProof3 PhysProof5 PhysProps.
From Verif Require EqModel EqSpec.
Open Scope R_scope.

Definition unit_normal (n : list R) : Prop := (List.length n <= 3)%nat /\ dot3 (fun i => nth i n 0) (fun i => nth i n 0) = 1.

(** ** C55 *)
(** [rot_den2] is the number under the square root by which the second and third rows are divided. *)
Theorem rotation_matrix_is_rotation n : unit_normal n ->
  exists M, rotation_matrix n = Ok M /\ meq (mmul M (mtr M)) id3 /\ meq (mmul (mtr M) M) id3 /\ det3 M = 1 /\
    veq (mvec M (fun i => nth i n 0)) (fun i => if Nat.eqb i 0 then 1 else 0) /\ 0 < rot_den2 (fun i => nth i n 0).
Proof.
  intros [L U]. destruct (rotation_ok n L U) as (M & E & [O1 O2] & D & V0 & _ & H). exists M. repeat split; assumption.
Qed.
Print Assumptions rotation_matrix_is_rotation.
Example rotation_hyps : unit_normal [1] /\ unit_normal [3 / 5; 4 / 5] /\ unit_normal [2 / 3; - 1 / 3; 2 / 3].
Proof. unfold unit_normal, dot3, sum3. cbn. repeat split; lia || lra. Qed.
(** in the degenerate directions too: the root cannot vanish for b = c or b = - c *)
Example rotation_hyps' : unit_normal [0; sqrt (/ 2); sqrt (/ 2)] /\ unit_normal [0; sqrt (/ 2); - sqrt (/ 2)].
Proof. assert (S := sqrt_sqrt (/ 2) ltac:(lra)). unfold unit_normal, dot3, sum3. cbn. repeat split; lia || lra. Qed.

(** ** C56 *)
Theorem rotate_back o M Q k : orthogonal M -> rotate_tensors o (rotate_tensors o Q M) (mtr M) k = Q k.
Proof. intro H. apply rot_back, H. Qed.
Print Assumptions rotate_back.
Theorem rotation_preserves_thermodynamics o P sm M Q : plain o P -> orthogonal M ->
  let Q' := rotate_tensors o Q M in
  Q' 0%nat = Q 0%nat /\ Q' 1%nat = Q 1%nat /\ internal_energy o P Q' = internal_energy o P Q /\
  pressure o P sm Q' = pressure o P sm Q /\ temperature o P sm Q' = temperature o P sm Q /\
  det3 (get_A Q') = det3 (get_A Q) /\ devGsq (get_A Q') = devGsq (get_A Q) /\
  meq (sigma P Q') (mmul (mmul M (sigma P Q)) (mtr M)) /\
  (forall k, (14 + 3 * b2n (THERMAL o) <= k)%nat -> Q' k = Q k).
Proof.
  intros (VI & HM & HR) OR Q'. split; [apply rot_0|]. split; [apply rot_1|]. split; [apply rot_energy; assumption|].
  split; [apply rot_pressure; assumption|]. split; [apply rot_temperature; assumption|].
  split; [unfold Q'; rewrite (det_meq _ _ (rot_getA o M Q)); apply conj_det, OR|].
  split; [unfold Q'; rewrite (devGsq_meq _ _ (rot_getA o M Q)); apply conj_devGsq, OR|].
  split; [apply rot_sigma; assumption|apply rot_rest].
Qed.
Print Assumptions rotation_preserves_thermodynamics.
(** the flux of the rotated state along axis [d] is the rotation of the flux of the original state along row [d] *)
Theorem flux_covariant o P sm sr ea src M Q d k : plain o P -> orthogonal M -> (d < 3)%nat -> Q 0%nat <> 0 ->
  let f := fun Q c => EqModel.flux o (gpr o P sm sr ea src) (fun _ => 0) Q c in
  f (rotate_tensors o Q M) d k = rotate_tensors o (fun j => sum3 (fun c => M d c * f Q c j)) M k.
Proof. intros (VI & HM & HR) OR Hd HQ f. exact (flux_rot o M OR P sm VI HM sr ea src Q d k Hd HQ). Qed.
Print Assumptions flux_covariant.
Example rotation_examples : exists M, rotation_matrix [3 / 5; 4 / 5] = Ok M /\ orthogonal M /\ plain shipped (demo_par JWL 300) /\ sheared 0%nat <> 0.
Proof.
  destruct (rotation_matrix_is_rotation [3 / 5; 4 / 5] (proj1 (proj2 rotation_hyps))) as (M & E & O1 & O2 & _).
  exists M. split; [exact E|]. split; [split; assumption|]. split; [repeat split; cbn; try reflexivity; lia|unfold sheared; lra].
Qed.

(** ** C58 *)
(** Isothermal slip: the common traction has no tangential part and the linearised normal velocities agree. *)
Theorem slip_conditions_partial o inverse RL RR QL QR xL xR : THERMAL o = false -> RL 11%nat 0%nat <> RR 11%nat 0%nat ->
  exists x, slip_bcs o inverse RL RR QL QR xL xR = Ok x /\ x 1%nat = 0 /\ x 2%nat = 0 /\
    QL 2%nat / QL 0%nat + rsum 3 (fun j => RL 11%nat j * (x j - xL j)) = QR 2%nat / QR 0%nat + rsum 3 (fun j => RR 11%nat j * (x j - xR j)).
Proof. intros T N. exact (slip_ok o inverse T RL RR QL QR xL xR N). Qed.
Print Assumptions slip_conditions_partial.
(** With heat conduction the second matrix is never initialised (conditions.cpp 40 assigns the first one again). *)
Theorem slip_conditions_refuted o inverse RL RR QL QR xL xR : THERMAL o = true -> is_ub (slip_bcs o inverse RL RR QL QR xL xR).
Proof. intro T. exact (slip_thermal o inverse T RL RR QL QR xL xR). Qed.
Print Assumptions slip_conditions_refuted.
(** A step with slip conditions leaves both sides with the same normal velocity. *)
Theorem slip_step_velocity o inverse ML MR QL QR QL' QR' : VISCOUS o = true -> THERMAL o = false -> vacuum MR = false ->
  constraints ML QL 1 11%nat 0%nat <> constraints MR QR (-1) 11%nat 0%nat ->
  star_stepper o false inverse QL QR ML MR = Ok (QL', QR') -> QL 0%nat <> 0 -> QR 0%nat <> 0 -> QL' 0%nat <> 0 -> QR' 0%nat <> 0 ->
  QL' 2%nat / QL' 0%nat = QR' 2%nat / QR' 0%nat.
Proof. intros VI T VA N E A B C D. exact (slip_step o false inverse VI T eq_refl ML MR QL QR QL' QR' VA N E A B C D). Qed.
Print Assumptions slip_step_velocity.

(** ** C67 *)
(** A step with stick conditions leaves both sides with the same velocity, if the matrix inverse is one. *)
Theorem stick_step_velocity o inverse ML MR QL QR QL' QR' : VISCOUS o = true -> vacuum MR = false ->
  let D : mat := fun i j => constraints ML QL 1 (11 + i)%nat j - constraints MR QR (-1) (11 + i)%nat j in
  (forall i j, (i < n1 o)%nat -> (j < n1 o)%nat -> rsum (n1 o) (fun k => D i k * inverse (n1 o) D k j) = if Nat.eqb i j then 1 else 0) ->
  star_stepper o true inverse QL QR ML MR = Ok (QL', QR') -> QL 0%nat <> 0 -> QR 0%nat <> 0 -> QL' 0%nat <> 0 -> QR' 0%nat <> 0 ->
  forall i, (i < 3)%nat -> QL' (2 + i)%nat / QL' 0%nat = QR' (2 + i)%nat / QR' 0%nat.
Proof. intros VI VA D I E A B C F i Hi. exact (stick_step o true inverse VI eq_refl ML MR QL QR QL' QR' VA I E A B C F i Hi). Qed.
Print Assumptions stick_step_velocity.
(** two gases with unit impedances *)
Definition gas (s : R) : material :=
  mkmaterial (demo_par STIFFENED_GAS 300) false (fun _ => (0, 0, 0)) (fun _ _ i j => if Nat.eqb i (11 + j) then s else 0) (fun Q _ => Q).
Example step_hyps : let D : mat := fun i j => constraints (gas 1) sheared 1 (11 + i)%nat j - constraints (gas (-1)) sheared (-1) (11 + i)%nat j in
  let inverse := fun (n : nat) (M : mat) (i j : nat) => M i j / 4 in
  constraints (gas 1) sheared 1 11%nat 0%nat <> constraints (gas (-1)) sheared (-1) 11%nat 0%nat /\ vacuum (gas (-1)) = false /\
  (forall i j, (i < n1 shipped)%nat -> (j < n1 shipped)%nat -> rsum (n1 shipped) (fun k => D i k * inverse (n1 shipped) D k j) = if Nat.eqb i j then 1 else 0) /\
  forall stick, exists QL' QR', star_stepper shipped stick inverse sheared sheared (gas 1) (gas (-1)) = Ok (QL', QR') /\ QL' 0%nat <> 0 /\ QR' 0%nat <> 0.
Proof.
  cbv zeta. split; [cbn; lra|]. split; [reflexivity|]. split.
  - intros i j Hi Hj. unfold n1 in *. cbn in Hi, Hj. idx3 i; idx3 j; cbn; lra.
  - intros stick. unfold star_stepper, slip_bcs. cbn [vacuum gas negb THERMAL shipped].
    assert (Z : forall s x, apply_step shipped (gas s) (fun i j => if Nat.eqb i (11 + j) then s else 0) x sheared 0%nat = 2).
    { intros s x. unfold apply_step. rewrite tc_0 by reflexivity. rewrite tp_0 by reflexivity. unfold matvec.
      rewrite rsum_zero; [unfold sheared; ring|]. intros j _. cbn [Nat.add Nat.eqb]. ring. }
    destruct stick; cbn [bind]; do 2 eexists; (split; [reflexivity|]); unfold gas at 2; unfold gas at 3; cbn [constraints]; rewrite !Z; lra.
Qed.

(** ** C57 *)
(** At most ten steps; the result is the input (a NaN appeared) or a rotated state without one. *)
Theorem star_state_terminates o stick relaxation TOL inverse nan QL QR ML MR dt n Q c :
  left_star_state o stick relaxation TOL inverse nan QL QR ML MR dt n = Ok (Q, c) ->
  (c <= 10)%nat /\ (Q = QL \/ exists M Q1, rotation_matrix n = Ok M /\ nan Q1 = false /\ Q = rotate_tensors o Q1 (mtr M)).
Proof. apply star_outcome. Qed.
Print Assumptions star_state_terminates.

(** tractions, velocity and heat flow through the surface with normal [n] *)
Definition traction o m Q (n : list R) : vec3 := fun i => sum3 (fun c => nth c n 0 * Sigma o (mpar m) (mix m) Q c i).
Definition along (n : list R) (v : vec3) : R := dot3 (fun i => nth i n 0) v.
(** the interface conditions: two materials that stick or slip, or a free surface *)
Definition interface_holds o (stick : bool) ML MR QL QR (n : list R) : Prop :=
  (if vacuum MR then veq (traction o ML QL n) (fun _ => 0)
   else if stick then veq (traction o ML QL n) (traction o MR QR n) /\ veq (vel QL) (vel QR)
   else along n (traction o ML QL n) = along n (traction o MR QR n) /\ along n (vel QL) = along n (vel QR)) /\
  (THERMAL o = true ->
     if vacuum MR then along n (hflux o ML QL) = 0
     else along n (hflux o ML QL) = along n (hflux o MR QR) /\ temperature o (mpar ML) (mix ML) QL = temperature o (mpar MR) (mix MR) QR).
(** the scales by which the residuals are divided are positive *)
Definition scales_ok o (m : material) : Prop :=
  let p := prm (mpar m) in 0 < rho0 p /\ 0 < b02 p /\ (THERMAL o = true -> 0 < ca2 p /\ 0 < Tref p /\ 0 < cv p).

Lemma rot_Sigma o M m Q i : plain o (mpar m) -> orthogonal M -> (i < 3)%nat ->
  Sigma o (mpar m) (mix m) (rotate_tensors o Q M) 0 i = mvec M (fun a => sum3 (fun c => M 0%nat c * Sigma o (mpar m) (mix m) Q c a)) i.
Proof.
  intros (VI & HM & HR) OR Hi. unfold Sigma. rewrite rot_sigma_col by (try assumption; lia). rewrite (rot_pressure o M OR _ (mix m) VI HM).
  assert (E := proj2 OR i 0%nat Hi ltac:(lia)). set (p := pressure _ _ _ _). set (s := sigma_col (mpar m) Q).
  assert (X : (if Nat.eqb i 0 then p else 0) = p * mmul M (mtr M) i 0%nat).
  { rewrite E. unfold id3, delta. destruct (Nat.eqb i 0); ring. }
  rewrite X. unfold mvec, mmul, mtr, sum3. cbn [Nat.eqb]. ring.
Qed.
Lemma rot_vel o M Q : veq (vel (rotate_tensors o Q M)) (mvec M (vel Q)).
Proof. intros i Hi. unfold vel, get_rhov. rewrite rot_0, rot_v by exact Hi. unfold mvec, sum3, get_rhov, Rdiv. ring. Qed.
Lemma rot_hflux o M m Q : plain o (mpar m) -> orthogonal M -> THERMAL o = true -> veq (hflux o m (rotate_tensors o Q M)) (mvec M (hflux o m Q)).
Proof.
  intros (VI & HM & HR) OR T i Hi. unfold hflux, heat_flux. rewrite (rot_temperature o M OR _ (mix m) VI HM). unfold get_rhoJ.
  rewrite rot_0, rot_J by assumption. unfold mvec, sum3, get_rhoJ, Rdiv. ring.
Qed.
Lemma max3_zero : forall v, veq v (fun _ => 0) -> max3 v = 0.
Proof.
  intros v H. unfold max3. rewrite !H by lia. rewrite Rabs_R0. unfold cmax. destruct (Rlt_dec 0 0); destruct (Rlt_dec 0 0); reflexivity.
Qed.
Lemma ltb_zero : forall a b t, 0 < t -> a = 0 -> ltb (a / b) t = true.
Proof. intros a b t T ->. unfold ltb, Rdiv. rewrite Rmult_0_l. destruct (Rlt_dec 0 t); [reflexivity|contradiction]. Qed.
Lemma mvec_veq M u v : veq u v -> veq (mvec M u) (mvec M v).
Proof. intros H i Hi. unfold mvec, sum3. rewrite !H by lia. reflexivity. Qed.
Lemma rot_check o stick TOL ML MR QL QR n M : plain o (mpar ML) -> (vacuum MR = false -> plain o (mpar MR)) ->
  orthogonal M -> (forall j, M 0%nat j = nth j n 0) -> 0 < TOL -> interface_holds o stick ML MR QL QR n ->
  check_star_convergence o stick TOL (rotate_tensors o QL M) (rotate_tensors o QR M) ML MR = true.
Proof.
  intros PL PR OR RW HT [HI HH].
  assert (TR : forall m Q i, plain o (mpar m) -> (i < 3)%nat -> Sigma o (mpar m) (mix m) (rotate_tensors o Q M) 0 i = mvec M (traction o m Q n) i).
  { intros m Q i Pm Hi. rewrite rot_Sigma by assumption. apply mvec_veq; [|exact Hi]. intros a _. unfold traction, sum3. rewrite !RW. reflexivity. }
  assert (AL : forall v, mvec M v 0%nat = along n v).
  { intros v. unfold mvec, along, dot3, sum3. rewrite !RW. reflexivity. }
  assert (TE : forall m Q, plain o (mpar m) -> temperature o (mpar m) (mix m) (rotate_tensors o Q M) = temperature o (mpar m) (mix m) Q).
  { intros m Q (VI & HM & HR). exact (rot_temperature o M OR _ (mix m) VI HM Q). }
  unfold check_star_convergence. destruct (vacuum MR) eqn:VA; cbn [negb].
  - assert (C : ltb (max3 (Sigma o (mpar ML) (mix ML) (rotate_tensors o QL M) 0) / (b02 (prm (mpar ML)) * rho0 (prm (mpar ML)))) TOL = true).
    { apply ltb_zero; [exact HT|]. apply max3_zero. intros i Hi. rewrite TR by assumption. rewrite (mvec_veq M _ _ HI) by exact Hi. unfold mvec, sum3. ring. }
    rewrite C. destruct (THERMAL o) eqn:T; [|reflexivity]. specialize (HH eq_refl). cbn [andb]. apply ltb_zero; [exact HT|].
    rewrite rot_hflux by (try assumption; lia). rewrite AL, HH. apply Rabs_R0.
  - specialize (PR eq_refl).
    cbv zeta. match goal with |- (if THERMAL o then _ else ?c) = true => assert (C : c = true) end.
    { destruct stick; apply andb_true_intro; destruct HI as [H1 H2]; split; apply ltb_zero; try exact HT.
      - apply max3_zero. intros i Hi. rewrite !TR by assumption. rewrite (mvec_veq M _ _ H1) by exact Hi. ring.
      - apply max3_zero. intros i Hi. rewrite !rot_vel by exact Hi. rewrite (mvec_veq M _ _ H2) by exact Hi. ring.
      - rewrite !TR by (try assumption; lia). rewrite !AL, H1. rewrite Rminus_diag_eq by reflexivity. apply Rabs_R0.
      - rewrite !rot_vel by lia. rewrite !AL, H2. rewrite Rminus_diag_eq by reflexivity. apply Rabs_R0. }
    rewrite C. destruct (THERMAL o) eqn:T; [|reflexivity]. destruct (HH eq_refl) as [H1 H2]. cbn [andb].
    apply andb_true_intro. split; apply ltb_zero; try exact HT.
    + rewrite !rot_hflux by (try assumption; lia). rewrite !AL, H1, Rminus_diag_eq by reflexivity. apply Rabs_R0.
    + rewrite !TE by assumption. rewrite H2, Rminus_diag_eq by reflexivity. apply Rabs_R0.
Qed.

(** When the interface conditions hold the state is returned unchanged, without a step. [scales_ok] keeps the quotients
    of the convergence test defined: for b0 = 0 (an inviscid fluid) the program divides zero by zero, which is not below
    the tolerance. *)
Theorem star_state_at_rest o stick relaxation TOL inverse nan QL QR ML MR dt n :
  plain o (mpar ML) -> scales_ok o ML -> (vacuum MR = false -> plain o (mpar MR) /\ scales_ok o MR) -> unit_normal n -> 0 < TOL ->
  (forall M, rotation_matrix n = Ok M -> nan (rotate_tensors o QL M) = false /\ nan (rotate_tensors o QR M) = false) ->
  interface_holds o stick ML MR QL QR n ->
  exists Q, left_star_state o stick relaxation TOL inverse nan QL QR ML MR dt n = Ok (Q, 0%nat) /\ forall k, Q k = QL k.
Proof.
  intros PL _ PR [L U] HT NN HI. destruct (rotation_ok n L U) as (M & E & OR & _ & _ & RW & _).
  destruct (NN M E) as [N1 N2]. apply (star_rest o stick relaxation TOL inverse nan QL QR ML MR dt n M E OR N1 N2).
  apply (rot_check o stick TOL ML MR QL QR n M PL (fun V => proj1 (PR V)) OR RW HT HI).
Qed.
Print Assumptions star_state_at_rest.
Example star_state_hyps stick : plain shipped (mpar (gas 1)) /\ scales_ok shipped (gas 1) /\ interface_holds shipped stick (gas 1) (gas (-1)) sheared sheared [3 / 5; 4 / 5].
Proof.
  split; [repeat split; cbn; try reflexivity; lia|]. split; [repeat split; cbn; try lra; discriminate|].
  split; [|discriminate]. cbn [vacuum gas]. destruct stick; split; try (intros i Hi; reflexivity); reflexivity.
Qed.
