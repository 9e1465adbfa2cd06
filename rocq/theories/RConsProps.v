(** Property C81: the correction of the interface states. *)
From Coq Require Import Reals ZArith Lra Psatz Lia FunctionalExtensionality ClassicalEpsilon.
From Coquelicot Require Import Coquelicot.
From Verif Require Import Base Options Sum Mat3 PhysModel PhysInst PhysSpec PhysProof2 PhysProof5 PhysProps PhysProof7 WaveProps.
From Verif Require Import RiemannModel RConsModel RConsSpec RConsProof RConsProof2 RConsProof3 RConsProof6.
From Verif Require EqModel.
Open Scope R_scope.

(** A state at which everything the solver divides by or inverts is regular: the distortion, the derivative of the stress on
    the interface by the first column of the distortion, and an acoustic tensor with positive eigenvalues and a basis of
    eigenvectors, which is what Eigen returns. *)
Definition regular o P sm (eigensolve : nat -> mat -> vec * mat) (Q : vec) : Prop :=
  plain o P /\ eos_ok (prm P) (Q 0%nat) /\ Gamma_MG (prm P) (Q 0%nat) <> 0 /\ b02 (prm P) <> 0 /\
  invertible 3 (get_A Q) /\ (THERMAL o = false -> invertible 3 (dsigmadA_dir P Q 0)) /\
  let X := thermo_acoustic_tensor o P sm Q 0 in
  eigenbasis (n1 o) X (fst (eigensolve (n1 o) X)) (snd (eigensolve (n1 o) X)).

(** The matrix exists. *)
Theorem constraints_defined o P sm inverse qrsolve eigensolve Q sgn : VISCOUS o = true ->
  exists M, riemann_constraints o P sm inverse qrsolve eigensolve Q sgn = Ok M.
Proof. intros VI. unfold riemann_constraints, eigen. rewrite VI. cbn [negb bind]. eexists. reflexivity. Qed.
Print Assumptions constraints_defined.

(** To first order, the correction with coefficients [c] changes the tractions on the interface, and with heat conduction the
    temperature, by [c]. (The temperature needs a vanishing reference temperature: finding C47.) *)
Theorem correction_changes_tractions o m inverse qrsolve eigensolve Q sgn M (c : vec) :
  inverse_ok inverse -> solve_ok qrsolve -> regular o (mpar m) (mix m) eigensolve Q ->
  riemann_constraints o (mpar m) (mix m) inverse qrsolve eigensolve Q sgn = Ok M -> (forall k, (n1 o <= k)%nat -> c k = 0) ->
  (forall i, (i < 3)%nat -> is_derive (fun t : R => Sigma o (mpar m) (mix m) (apply_step o m M (fun j => t * c j) Q) 0 i) 0 (c i)) /\
  (THERMAL o = true -> cv (prm (mpar m)) <> 0 -> Tref (prm (mpar m)) = 0 ->
   is_derive (fun t : R => temperature o (mpar m) (mix m) (apply_step o m M (fun j => t * c j) Q)) 0 (c 3%nat)).
Proof.
  intros IO SO (PL & OK & HG & HB & HA & HP & EB) HM HC.
  pose proof (step_traction o m inverse qrsolve eigensolve IO SO PL Q OK HG HB HA HP EB sgn M HM c HC) as S_. split.
  - intros i Hi. assert (D := S_ i ltac:(unfold n1; lia) ltac:(lia)). unfold tractions in D. rewrite (proj2 (Nat.ltb_lt i 3) Hi) in D. exact D.
  - intros T C T0. exact (S_ 3%nat ltac:(unfold n1; rewrite T; cbn; lia) (fun _ => conj C T0)).
Qed.
Print Assumptions correction_changes_tractions.

(** The velocity (and the first component of the thermal impulse) follows the traction through the acoustic impedance: a
    traction [x] along an eigenvector of the acoustic tensor, with wave speed sqrt lam, comes with the velocity
    - sgn x / (rho sqrt lam), so on the left (sgn = 1) a compression pushes to the left. *)
Theorem correction_impedance o m inverse qrsolve eigensolve Q sgn M (x : vec) lam t i :
  inverse_ok inverse -> solve_ok qrsolve -> regular o (mpar m) (mix m) eigensolve Q ->
  riemann_constraints o (mpar m) (mix m) inverse qrsolve eigensolve Q sgn = Ok M -> (forall k, (n1 o <= k)%nat -> x k = 0) ->
  (forall i, (i < n1 o)%nat -> rsum (n1 o) (fun j => thermo_acoustic_tensor o (mpar m) (mix m) Q 0 i j * x j) = lam * x i) ->
  let Q' := apply_step o m M (fun j => t * x j) Q in Q' 0%nat <> 0 -> (i < n1 o)%nat ->
  side_velocity Q' i = side_velocity Q i - t * sgn * x i / (Q 0%nat * sqrt lam).
Proof.
  intros IO SO (PL & OK & HG & HB & HA & HP & EB) HM HC EX Q' N Hi. assert (R0 : 0 < Q 0%nat) by apply OK.
  assert (N' : Q 0%nat + t * dir o M x 0%nat <> 0).
  { unfold Q' in N. rewrite step_moved, (moved_0 o (mpar m) (mix m) PL) in N. exact N. }
  unfold Q'. rewrite (step_velocity o m PL Q OK HP M x HC t i Hi N').
  rewrite (vel_eig o m inverse qrsolve eigensolve IO SO PL Q OK HA HP EB sgn M HM x lam EX i Hi).
  destruct (Req_EM_T (x i) 0) as [Z|Z]; [rewrite Z; unfold Rdiv; ring|].
  assert (L : 0 < lam) by exact (lam_pos o (mpar m) (mix m) inverse eigensolve IO Q EB lam x EX (ex_intro _ i (conj Hi Z))).
  rewrite <- inv_sqrt by exact L. assert (S0 := sqrt_lt_R0 _ L). field. split; lra.
Qed.
Print Assumptions correction_impedance.

(** Such a correction is, to first order, a wave of the full system, and it runs away from the interface: the velocity of the
    state is an eigenvector of the system matrix for the speed v - sgn sqrt lam. Not covered: heat conduction. *)
Theorem correction_is_wave_partial o m inverse qrsolve eigensolve Q sgn M (x : vec) lam sr ea src : THERMAL o = false ->
  inverse_ok inverse -> solve_ok qrsolve -> regular o (mpar m) (mix m) eigensolve Q -> hyperbolic o (mpar m) (mix m) Q ->
  riemann_constraints o (mpar m) (mix m) inverse qrsolve eigensolve Q sgn = Ok M -> sgn = 1 \/ sgn = -1 ->
  (forall k, (3 <= k)%nat -> x k = 0) -> (exists k, (k < 3)%nat /\ x k <> 0) ->
  (forall i, (i < 3)%nat -> rsum 3 (fun j => thermo_acoustic_tensor o (mpar m) (mix m) Q 0 i j * x j) = lam * x i) ->
  0 < lam /\ exists w : vec, (forall k, is_derive (fun t : R => apply_step o m M (fun j => t * x j) Q k) 0 (w k)) /\
    (exists k, (k < V o)%nat /\ w k <> 0) /\
    forall i, (i < V o)%nat -> rsum (V o) (fun j => EqModel.system_matrix o (gpr o (mpar m) (mix m) sr ea src) Q 0 i j * w j)
      = (Q 2%nat / Q 0%nat - sgn * sqrt lam) * w i.
Proof.
  intros TH IO SO (PL & OK & HG & HB & HA & HP & EB) HY HM SG HC NZ EX.
  assert (N3 : n1 o = 3%nat) by (unfold n1; rewrite TH; reflexivity).
  assert (HC' : forall k, (n1 o <= k)%nat -> x k = 0) by (rewrite N3; exact HC).
  assert (EX' : forall i, (i < n1 o)%nat -> rsum (n1 o) (fun j => thermo_acoustic_tensor o (mpar m) (mix m) Q 0 i j * x j) = lam * x i) by (rewrite N3; exact EX).
  assert (NZ' : exists k, (k < n1 o)%nat /\ x k <> 0) by (rewrite N3; exact NZ).
  assert (S1 : sgn * sgn = 1) by (destruct SG as [-> | ->]; ring). split.
  - exact (lam_pos o (mpar m) (mix m) inverse eigensolve IO Q EB lam x EX' NZ').
  - exact (step_wave o m inverse qrsolve eigensolve IO SO PL Q OK HG HB HA HP EB sgn M HM x HC' lam EX' NZ' TH S1 HY sr ea src).
Qed.
Print Assumptions correction_is_wave_partial.

(** the states between two states, on a straight line in the primitive variables *)
Definition segment o P sm (Q Q' : vec) (t : R) : vec :=
  Pvec_to_Cvec o P (fun i => (1 - t) * Cvec_to_Pvec o P sm Q i + t * Cvec_to_Pvec o P sm Q' i).
Lemma segment_step o m M c Q t : plain o (mpar m) -> let Q' := apply_step o m M c Q in Q' 0%nat <> 0 -> Gamma_MG (prm (mpar m)) (Q' 0%nat) <> 0 ->
  segment o (mpar m) (mix m) Q Q' t = apply_step o m M (fun j => t * c j) Q.
Proof.
  intros (VI & HM & HR) Q' N G. unfold segment, apply_step. f_equal. apply functional_extensionality. intro i.
  unfold Q', apply_step. rewrite (tp_tc o (mpar m) (mix m) VI HM HR).
  - transitivity (Cvec_to_Pvec o (mpar m) (mix m) Q i + t * matvec o M c i); [ring|]. unfold matvec. rewrite <- rsum_scal. rewrite Rplus_comm. f_equal. apply rsum_ext. intros; ring.
  - unfold Q', apply_step in N. rewrite (tc_0 o (mpar m) VI) in N. exact N.
  - unfold Q', apply_step in G. rewrite (tc_0 o (mpar m) VI) in G. exact G.
Qed.
Definition landed P (Q : vec) : Prop := Q 0%nat <> 0 /\ Gamma_MG (prm P) (Q 0%nat) <> 0.

(** One step of the solver is a Newton step for the continuity of the tractions: extrapolated linearly from the old states,
    the tractions of the two new states are the same [x], without a tangential part on a sliding interface, and zero at a
    free surface. (That the velocities agree exactly is C58 and C67.) *)
Theorem star_step_matches_tractions o stick inverse qrsolve eigensolve ML MR QL QR QL' QR' :
  inverse_ok inverse -> solve_ok qrsolve -> regular o (mpar ML) (mix ML) eigensolve QL -> regular o (mpar MR) (mix MR) eigensolve QR ->
  riemann_constraints o (mpar ML) (mix ML) inverse qrsolve eigensolve QL 1 = Ok (constraints ML QL 1) ->
  riemann_constraints o (mpar MR) (mix MR) inverse qrsolve eigensolve QR (-1) = Ok (constraints MR QR (-1)) ->
  vacuum MR = false -> star_stepper o stick inverse QL QR ML MR = Ok (QL', QR') -> landed (mpar ML) QL' -> landed (mpar MR) QR' ->
  exists x : vec,
    (forall i, (i < 3)%nat ->
       is_derive (fun t : R => Sigma o (mpar ML) (mix ML) (segment o (mpar ML) (mix ML) QL QL' t) 0 i) 0 (x i - Sigma o (mpar ML) (mix ML) QL 0 i) /\
       is_derive (fun t : R => Sigma o (mpar MR) (mix MR) (segment o (mpar MR) (mix MR) QR QR' t) 0 i) 0 (x i - Sigma o (mpar MR) (mix MR) QR 0 i)) /\
    (stick = false -> x 1%nat = 0 /\ x 2%nat = 0).
Proof.
  intros IO SO GL GR HL HR VA E (NL & KL) (NR & KR). unfold star_stepper in E. rewrite VA in E. cbn [negb] in E.
  destruct (if stick then Ok (stick_bcs o inverse (constraints ML QL 1) (constraints MR QR (-1)) QL QR (tractions o ML QL) (tractions o MR QR))
    else slip_bcs o inverse (constraints ML QL 1) (constraints MR QR (-1)) QL QR (tractions o ML QL) (tractions o MR QR)) as [x| | |] eqn:EX; try discriminate.
  cbn [bind] in E. injection E as <- <-. exists x. split.
  - intros i Hi. assert (I3 : (i < n1 o)%nat) by (unfold n1; lia).
    assert (HV : forall y, head (n1 o) y i = y i) by (intro y; unfold head; rewrite (proj2 (Nat.ltb_lt _ _) I3); reflexivity).
    assert (HZ : forall y k, (n1 o <= k)%nat -> head (n1 o) y k = 0) by (intros y k Hk; unfold head; rewrite (proj2 (Nat.ltb_ge _ _) Hk); reflexivity).
    split.
    + destruct (correction_changes_tractions o ML inverse qrsolve eigensolve QL 1 _ (head (n1 o) (fun i => x i - tractions o ML QL i)) IO SO GL HL (HZ _)) as (D & _).
      specialize (D i Hi). rewrite HV in D. unfold tractions in D at 2. rewrite (proj2 (Nat.ltb_lt i 3) Hi) in D.
      refine (is_derive_ext _ _ _ _ _ D). intro t. symmetry. rewrite segment_step; [reflexivity|apply GL|exact NL|exact KL].
    + destruct (correction_changes_tractions o MR inverse qrsolve eigensolve QR (-1) _ (head (n1 o) (fun i => x i - tractions o MR QR i)) IO SO GR HR (HZ _)) as (D & _).
      specialize (D i Hi). rewrite HV in D. unfold tractions in D at 2. rewrite (proj2 (Nat.ltb_lt i 3) Hi) in D.
      refine (is_derive_ext _ _ _ _ _ D). intro t. symmetry. rewrite segment_step; [reflexivity|apply GR|exact NR|exact KR].
  - intros ->. unfold slip_bcs in EX. destruct (THERMAL o); [discriminate|]. injection EX as <-. split; reflexivity.
Qed.
Print Assumptions star_step_matches_tractions.
Theorem star_step_frees_surface o stick inverse qrsolve eigensolve ML MR QL QR QL' QR' :
  inverse_ok inverse -> solve_ok qrsolve -> regular o (mpar ML) (mix ML) eigensolve QL ->
  riemann_constraints o (mpar ML) (mix ML) inverse qrsolve eigensolve QL 1 = Ok (constraints ML QL 1) ->
  vacuum MR = true -> star_stepper o stick inverse QL QR ML MR = Ok (QL', QR') -> landed (mpar ML) QL' ->
  forall i, (i < 3)%nat ->
    is_derive (fun t : R => Sigma o (mpar ML) (mix ML) (segment o (mpar ML) (mix ML) QL QL' t) 0 i) 0 (- Sigma o (mpar ML) (mix ML) QL 0 i).
Proof.
  intros IO SO GL HL VA E (NL & KL) i Hi. unfold star_stepper in E. rewrite VA in E. cbn [negb] in E. injection E as <- <-.
  assert (I3 : (i < n1 o)%nat) by (unfold n1; lia).
  set (c := if THERMAL o then _ else _) in *.
  assert (CI : c i = - Sigma o (mpar ML) (mix ML) QL 0 i).
  { unfold c. destruct (THERMAL o); unfold set1, head; rewrite ?(proj2 (Nat.eqb_neq i 3)) by lia; rewrite (proj2 (Nat.ltb_lt _ _) I3); unfold tractions; rewrite (proj2 (Nat.ltb_lt i 3) Hi); reflexivity. }
  assert (CZ : forall k, (n1 o <= k)%nat -> c k = 0).
  { intros k Hk. unfold c. destruct (THERMAL o) eqn:T; unfold set1, head; [rewrite (proj2 (Nat.eqb_neq k 3)) by (unfold n1 in Hk; rewrite T in Hk; cbn in Hk; lia)|]; rewrite (proj2 (Nat.ltb_ge _ _) Hk); reflexivity. }
  destruct (correction_changes_tractions o ML inverse qrsolve eigensolve QL 1 _ c IO SO GL HL CZ) as (D & _).
  specialize (D i Hi). rewrite CI in D. refine (is_derive_ext _ _ _ _ _ D). intro t. symmetry. rewrite segment_step; [reflexivity|apply GL|exact NL|exact KL].
Qed.
Print Assumptions star_step_frees_surface.

(** ** non-vacuity *)
(** exact routines exist *)
Example exact_routines : exists inverse qrsolve, inverse_ok inverse /\ solve_ok qrsolve.
Proof.
  exists (fun n A => epsilon (inhabits (zero_mat : mat)) (fun B => inverses n A B)),
    (fun k M b => epsilon (inhabits (zero_mat : mat)) (fun X => forall i j, (i < 5)%nat -> (j < k)%nat -> mm 5 M X i j = b i j)). split.
  - intros n A (B & HB). exact (epsilon_spec (inhabits zero_mat) (fun B => inverses n A B) (ex_intro _ B HB)).
  - intros k M b X INJ HX. set (Y := epsilon _ _).
    assert (HY : forall i j, (i < 5)%nat -> (j < k)%nat -> mm 5 M Y i j = b i j)
      by exact (epsilon_spec (inhabits zero_mat) (fun X => forall i j, (i < 5)%nat -> (j < k)%nat -> mm 5 M X i j = b i j) (ex_intro _ X HX)).
    intros i j Hi Hj. enough (Z : Y i j - X i j = 0) by lra. apply (INJ (fun i => Y i j - X i j)); [|exact Hi]. intros a Ha.
    assert (E1 := HY a j Ha Hj). assert (E2 := HX a j Ha Hj). unfold mm in E1, E2.
    rewrite (rsum_ext 5 _ (fun k => M a k * Y k j - M a k * X k j)) by (intros; ring). rewrite rsum_minus, E1, E2. ring.
Qed.
(** an unstrained solid at rest: acoustic tensor diag (62/15, 1, 1) *)
Definition still_eig (n : nat) (M : mat) : vec * mat := (fun k => if Nat.eqb k 0 then 62 / 15 else 1, eye).
Lemma eye_inv n : inverses n eye eye.
Proof. intros i j Hi Hj. rewrite mm_eye_l by exact Hi. split; reflexivity. Qed.
Lemma still_acoustic sm i j : (i < 3)%nat -> (j < 3)%nat ->
  thermo_acoustic_tensor shipped Pd sm still 0 i j = if Nat.eqb i j then (if Nat.eqb i 0 then 62 / 15 else 1) else 0.
Proof.
  intros Hi Hj.
  assert (C0 : c_0 shipped Pd sm still * c_0 shipped Pd sm still = 14 / 5).
  { unfold c_0. rewrite sqrt_sqrt by exact (proj2 (proj2 (proj2 (proj2 (wave_hyps sm))))). rewrite still_p, still_Er, still_Ep. unfold still. field. }
  assert (PI : forall a b, (a < 3)%nat -> (b < 3)%nat -> dsigmadA_dir Pd still 0 a b = if Nat.eqb a b then (if Nat.eqb a 0 then - (4 / 3) else -1) else 0).
  { intros a b Ha Hb. unfold dsigmadA_dir. cbv zeta. change (mmul (mtr (get_A still)) (get_A still)) with (gram (get_A still)).
    rewrite still_dG, !still_G by lia. change (still 0%nat) with 1. rewrite still_cs. unfold get_A, still, delta. idx3 a; idx3 b; cbn; field. }
  assert (SR : forall a, (a < 3)%nat -> dsigmadrho Pd still 0 a = 0) by (intros a Ha; unfold dsigmadrho; rewrite still_s by exact Ha; ring).
  unfold thermo_acoustic_tensor, Xi1, Xi2, addblock, setblock. cbv zeta. cbn [VISCOUS THERMAL shipped]. 
  idx3 i; idx3 j; cbn [rsum Nat.leb Nat.ltb Nat.add Nat.sub Nat.eqb andb]; rewrite ?PI, ?SR, ?still_s by lia; cbn [Nat.eqb]; change (still 0%nat) with 1;
    unfold get_A; cbn [Nat.add Nat.mul still]; try (field; fail);
    match goal with |- context [1 * ?c * ?c] => replace (1 * c * c) with (14 / 5) by (rewrite <- C0; ring) end; field.
Qed.
Example regular_case sm : regular shipped Pd sm still_eig still /\ hyperbolic shipped Pd sm still /\
  forall x : vec, (forall k, (1 <= k)%nat -> x k = 0) -> forall i, (i < 3)%nat -> rsum 3 (fun j => thermo_acoustic_tensor shipped Pd sm still 0 i j * x j) = 62 / 15 * x i.
Proof.
  destruct (wave_hyps sm) as (PL & OK & HG & HB & HY). split; [|split; [exact HY|]].
  - split; [exact PL|]. split; [exact OK|]. split; [exact HG|]. split; [exact HB|]. split; [|split].
    + exists eye. apply (inv_ext 3 eye); [|apply eye_inv]. intros i j Hi Hj. unfold eye, get_A, still. idx3 i; idx3 j; reflexivity.
    + intros _. exists (fun i j => if Nat.eqb i j then (if Nat.eqb i 0 then - (3 / 4) else -1) else 0).
      assert (PI : forall a b, (a < 3)%nat -> (b < 3)%nat -> dsigmadA_dir Pd still 0 a b = if Nat.eqb a b then (if Nat.eqb a 0 then - (4 / 3) else -1) else 0).
      { intros a b Ha Hb. unfold dsigmadA_dir. cbv zeta. change (mmul (mtr (get_A still)) (get_A still)) with (gram (get_A still)).
        rewrite still_dG, !still_G by lia. change (still 0%nat) with 1. rewrite still_cs. unfold get_A, still, delta. idx3 a; idx3 b; cbn; field. }
      intros i j Hi Hj. unfold mm, eye. cbn [rsum]. rewrite !PI by lia. idx3 i; idx3 j; cbn [Nat.eqb]; split; field.
    + split; [|split].
      * intros k Hk. cbn [fst still_eig]. destruct (Nat.eqb k 0); lra.
      * exists eye. apply eye_inv.
      * intros i k Hi Hk. change (n1 shipped) with 3%nat in *. cbn [fst snd still_eig]. cbn [rsum]. rewrite !still_acoustic by lia. unfold eye. idx3 i; idx3 k; cbn [Nat.eqb]; field.
  - intros x Hx i Hi. cbn [rsum]. rewrite !still_acoustic by lia. rewrite (Hx 1%nat), (Hx 2%nat) by lia. idx3 i; cbn [Nat.eqb]; try ring; rewrite ?(Hx 1%nat), ?(Hx 2%nat) by lia; ring.
Qed.
