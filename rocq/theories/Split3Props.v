(** C77: a whole split step on finite data touches no memory out of range and gives numbers; C75 for the relaxation the
    code has (body forces, distortion, thermal impulse, reaction). *)
From Coq Require Import Reals Lia Lra ZArith FunctionalExtensionality.
From Verif Require Import Base Options Sum EqModel EqSpec EqProof FvModel FvBody FvSpec FvProof FvProps PolyModel WenoModel WenoSpec WenoProof WenoProof3 WenoProps
  DgModel DgSpec DgProof DgProof2 DgProof3 DgProps StepperModel StepperProof GridModel GridSpec GridProps AderModel AderProof AderProof2 AderProof3 AderProps AderProof4 Ader2Props Ader3Props
  HomogModel SplitProof SplitProps Split2Props.
From Verif Require Mat3 PhysModel PhysInst UtilsModel UtilsProof RelaxModel RelaxProof Relax2Props.
From Verif Require StepperProps.
Import List ListNotations.
Open Scope nat_scope.

Section C77.
Variable o : options.
Variable ph : phys.
Variables NODES WGHTS : nat -> R.
Variables ENDVALS DERVALS : nat -> nat -> R.
Variables (FLUX : nat) (dt : R) (dX : nat -> R).
Variables (nodes : list R) (bs : list poly).
Variable valid : nodal -> bool.
Variables (SIG : nat -> nat -> R) (LAMS LAMC EPS : R) (inv : stencil -> (nat -> R) -> nat -> R).
Variable prim : option ((num -> num) * (num -> num)).
Variable ode : num -> num.
Variable HALF : bool.
Variable wallf : nat -> nat -> num -> num.
Notation split := (split_step o ph DERVALS dt dX valid NODES WGHTS ENDVALS FLUX SIG LAMS LAMC EPS inv prim ode HALF).
Notation midf := (mid o ph DERVALS dt dX valid).

Hypothesis HR : runs o FLUX dX.
Hypothesis HN : length nodes = N o.
Hypothesis HW : weno_setup nodes bs inv SIG LAMS LAMC EPS.
Hypothesis HP : total_prim prim.
(** the relaxation and the constitutive functions give numbers on numbers *)
Hypothesis HO : total_cell ode.
Hypothesis HVal : HALF = true -> forall q, valid q = true.

Lemma view_finite l : Forall (fun x : num => exists v, x = Some v) l -> exists q, view l = Some q.
Proof using.
  intros F. unfold view. replace (all_finite l) with true; [eauto|]. symmetry. apply forallb_forall. intros x Hx. rewrite Forall_forall in F. destruct (F x Hx) as [v ->]. reflexivity.
Qed.
Lemma mid_finite ndim l : ndim = 1 \/ ndim = 2 -> Forall (fun x : num => exists v, x = Some v) l ->
  exists q, (if HALF then midf ndim l else Ok (view l)) = Ok (Some q).
Proof using HR HN HVal.
  intros Hn F. destruct (view_finite l F) as [q E]. destruct HALF; [|rewrite E; eauto]. unfold mid. rewrite E, (HVal eq_refl q). destruct HR as [HV _].
  destruct Hn as [-> | ->]; [unfold mid1|unfold mid2].
  - match goal with |- context [rows ?m ?f] => destruct (rows_ok m f (fun a => match f a with Ok r => r | _ => fun _ => 0%R end)) as [r [Er _]] end.
    + intros a Ha. cbv zeta. rewrite (Bdot_ok o HV) by lia. reflexivity.
    + rewrite Er. cbn [bind]. eauto.
  - match goal with |- context [rows ?m ?f] => destruct (rows_ok m f (fun a => match f a with Ok r => r | _ => fun _ => 0%R end)) as [r [Er _]] end.
    + intros a Ha. cbv zeta. rewrite !(Bdot_ok o HV) by lia. reflexivity.
    + rewrite Er. cbn [bind]. eauto.
Qed.
Lemma midst_finite ndim m wh mask : ndim = 1 \/ ndim = 2 -> 1 <= N o -> finite_reads (m * N o ^ ndim) wh -> blen mask = m -> (forall i, i < m -> exists b, rd mask i = Ok b) ->
  exists rec q, midstepper (option nodal) view midf HALF ndim (N o ^ ndim) (balloc m) wh mask = Ok rec /\ blen rec = m /\ forall i, i < m -> bdat rec i = Some (Some (q i)).
Proof using HR HN HVal.
  intros Hn N1 Hr Lm Hm.
  assert (G : forall i, i < m -> exists q, mcell (option nodal) view midf HALF ndim (N o ^ ndim) wh mask i = Ok (Some q)).
  { intros i Hi. unfold mcell. destruct (Hm i Hi) as [b Eb]. rewrite Eb. cbn [bind].
    destruct (gather_finite o nodes HN wh (m * N o ^ ndim) (N o ^ ndim) (i * N o ^ ndim) Hr ltac:(nia)) as [l [-> [Ll Fl]]]. cbn [bind].
    destruct b; cbn [andb]; [apply mid_finite; assumption|]. destruct (view_finite l Fl) as [q ->]. eauto. }
  destruct (midstepper_ok (N o) N1 (option nodal) view midf HALF ndim (N o ^ ndim) (balloc m) wh mask
     (fun i => match mcell (option nodal) view midf HALF ndim (N o ^ ndim) wh mask i with Ok r => r | _ => None end)) as [rec [Er [Lr Vr]]].
  - cbn [balloc blen]. lia.
  - intros i Hi. destruct (G i ltac:(lia)) as [q ->]. reflexivity.
  - exists rec, (fun a => match bdat rec a with Some (Some q) => q | _ => zblk end). split; [exact Er|]. split; [exact Lr|].
    intros i Hi. specialize (Vr i ltac:(lia)). destruct (G i Hi) as [q Eq]. rewrite Eq in Vr. now rewrite Vr.
Qed.
Lemma relax_finite m u x : holds m u x -> exists u' x', fold_res do_update (relax num ode m) u = Ok u' /\ holds m u' x'.
Proof using HO.
  intros [L H]. destruct (relax_ok num ode m u (fun a => Some (x a)) L H) as [u' [F [L' V]]].
  exists u', (fun a => match ode (Some (x a)) with Some v => v | None => x a end). split; [exact F|]. split; [exact L'|]. intros c Hc. rewrite V by exact Hc. destruct (HO (x c)) as [v ->]. reflexivity.
Qed.

Theorem split_total_1d nx bt u ub0 mask x :
  N o <= nx -> total_walls wallf bt 1 -> holds nx u x -> blen mask = extended_dimensions [nx] 1 -> StepperProps.initialised mask -> blen ub0 = extended_dimensions [nx] (N o) ->
  exists ub u' x', boundaries num (N o) wallf u ub0 [nx] bt = Ok ub /\ split u ub mask [nx] = Ok u' /\ holds nx u' x'.
Proof using HR HN HW HP HO HVal.
  intros Nn HK Hu Lm0 [mk Hm] Lb. pose proof HR as [HV [HF [D0 D1]]]. pose proof HW as [_ [_ [N1 _]]]. rewrite HN in N1. pose proof Hu as [Lu Du].
  assert (Lm : blen mask = nx + 2) by (rewrite Lm0; cbn; lia). rewrite Lm in Hm.
  destruct (boundaries_1d_correct num (N o) wallf u ub0 nx bt (fun i => Some (x i)) Nn ltac:(lia) ltac:(intros k Hk; apply HK; lia) Lu Du Lb) as [ub [Eb [Lub Wub]]].
  exists ub. assert (FU : finite_full (nx + 2 * N o) (bmap ode ub)).
  { apply finite_bmap; [|exact HO]. split; [exact Lub|]. intros a Ha. rewrite Wub by exact Ha. edestruct (extend1_finite o nodes wallf HN) as [v E]; [| | |rewrite E; eauto]; [eauto|apply (HK 0); lia|apply (HK 1); lia]. }
  destruct (weno_finite_1d o nodes bs SIG LAMS LAMC EPS inv prim HN HW HP nx (bmap ode ub) FU) as [wh [Ewh Rw]]. replace ((nx + 2) * N o) with ((nx + 2) * N o ^ 1) in Rw by (rewrite Nat.pow_1_r; reflexivity).
  destruct (midst_finite 1 (nx + 2) wh mask (or_introl eq_refl) N1 Rw Lm ltac:(intros i Hi; exists (mk i); apply rd_ok; [lia|apply Hm, Hi])) as [rec [q [Er [Lr Vr]]]].
  destruct (relax_finite nx u x Hu) as [u4 [x4 [E4 H4]]].
  assert (H1 : holds1 o false nx (cells nx x4) (strip rec) mask x4 (fun i _ => q i) mk).
  { split; [reflexivity|]. split; [intros c Hc; apply cells_ok, Hc|]. split.
    - intros i t Hi Ht. cbn [nt_of] in *. assert (t = 0) as -> by lia. rewrite Nat.mul_1_r, Nat.add_0_r. apply rd_ok; cbn [strip blen bdat]; [lia|]. rewrite Vr by exact Hi. reflexivity.
    - intros i Hi. apply rd_ok; [lia|apply Hm; lia]. }
  destruct (fv_launcher_1d o ph NODES WGHTS ENDVALS DERVALS false false FLUX dt dX nx (cells nx x4) (strip rec) mask _ _ _ HR H1) as [u2 [x2 [E2 [L2 [V2 _]]]]].
  destruct (fv_is_split o ph NODES WGHTS ENDVALS DERVALS FLUX dt dX HF valid SIG LAMS LAMC EPS inv prim ode HALF
     (cells nx x4) u4 ub mask [nx] u2 wh rec q u (or_introl eq_refl)) as [w5 [U5 F5]].
  - cbn [length]. rewrite Nat.pow_1_r. replace (extended_dimensions [nx] 1) with (nx + 2) by (cbn; lia). exact Ewh.
  - cbn [length]. replace (extended_dimensions [nx] 1) with (nx + 2) by (cbn; lia). exact Er.
  - intros a Ha. apply Vr. lia.
  - rewrite Lu. exact E4.
  - apply cells_u, H4.
  - exact E2.
  - assert (H5 : holds nx w5 x2).
    { destruct U5 as [RL RV]. split; [congruence|]. intros c Hc. destruct (RV c (x2 c) (V2 c Hc)) as [y [Ey ->]]. exact Ey. }
    destruct (relax_finite nx w5 x2 H5) as [w6 [x6 [E6 H6]]]. exists w6, x6. split; [exact Eb|]. split; [|exact H6]. apply F5. rewrite Lu. exact E6.
Qed.

Theorem split_total_2d nx ny bt u ub0 mask x :
  N o <= nx -> N o <= ny -> (NO_CORNERS o = true -> enough (N o) (nx + 2) (N o)) -> total_walls wallf bt 2 ->
  holds (nx * ny) u x -> blen mask = extended_dimensions [nx; ny] 1 -> StepperProps.initialised mask -> blen ub0 = extended_dimensions [nx; ny] (N o) ->
  exists ub u' x', boundaries num (N o) wallf u ub0 [nx; ny] bt = Ok ub /\ split u ub mask [nx; ny] = Ok u' /\ holds (nx * ny) u' x'.
Proof using HR HN HW HP HO HVal.
  intros Nn Ny HE HK Hu Lm0 [mk Hm] Lb. pose proof HR as [HV [HF [D0 D1]]]. pose proof HW as [_ [_ [N1 _]]]. rewrite HN in N1. pose proof Hu as [Lu Du].
  assert (Lm : blen mask = (nx + 2) * (ny + 2)) by (rewrite Lm0; unfold extended_dimensions; cbn; lia). rewrite Lm in Hm.
  destruct (boundaries_2d_correct num (N o) wallf u ub0 nx ny bt (fun i j => Some (x (i * ny + j))) Nn ltac:(lia) Ny ltac:(lia) ltac:(intros k Hk; apply HK; lia) Lu) as [ub [Eb [Lub Wub]]];
    [intros i j Hi Hj; apply Du, pack_bound; assumption|exact Lb|].
  exists ub. assert (FU : finite_full ((nx + 2 * N o) * (ny + 2 * N o)) (bmap ode ub)).
  { apply finite_bmap; [|exact HO]. split; [exact Lub|]. intros a Ha. rewrite (Nat.div_mod_eq a (ny + 2 * N o)), (Nat.mul_comm (ny + 2 * N o)). rewrite Wub; [|apply Nat.div_lt_upper_bound; lia|apply Nat.mod_upper_bound; lia].
    unfold extend2. edestruct (extend1_finite o nodes wallf HN) as [v E]; [| | |rewrite E; eauto]; [|apply (HK 2); lia|apply (HK 3); lia].
    intros y. apply (extend1_finite o nodes wallf HN); [eauto|apply (HK 0); lia|apply (HK 1); lia]. }
  destruct (weno_finite_2d o nodes bs SIG LAMS LAMC EPS inv prim HN HW HP nx ny (bmap ode ub) HE FU) as [wh [Ewh Rw]].
  destruct (midst_finite 2 ((nx + 2) * (ny + 2)) wh mask (or_intror eq_refl) N1 Rw Lm ltac:(intros i Hi; exists (mk i); apply rd_ok; [lia|apply Hm, Hi])) as [rec [q [Er [Lr Vr]]]].
  destruct (relax_finite (nx * ny) u x Hu) as [u4 [x4 [E4 H4]]].
  assert (DX : extended_dimensions [nx; ny] 1 = (nx + 2) * (ny + 2)) by (unfold extended_dimensions; cbn; lia).
  assert (H1 : holds2 o false nx ny (cells (nx * ny) x4) (strip rec) mask (fun a b => x4 (a * ny + b)) (fun i j _ => q (i * (ny + 2) + j)) (fun i j => mk (i * (ny + 2) + j))).
  { split; [reflexivity|]. split; [intros a b Ha Hb; apply cells_ok, pack_bound; assumption|]. split.
    - intros i j t Hi Hj Ht. cbn [nt_of] in *. assert (t = 0) as -> by lia. rewrite Nat.mul_1_r, Nat.add_0_r. assert (B : i * (ny + 2) + j < (nx + 2) * (ny + 2)) by (apply pack_bound; assumption).
      apply rd_ok; cbn [strip blen bdat]; [lia|]. rewrite Vr by exact B. reflexivity.
    - intros i j Hi Hj. assert (B : i * (ny + 2) + j < (nx + 2) * (ny + 2)) by (apply pack_bound; assumption). apply rd_ok; [lia|apply Hm, B]. }
  destruct (fv_launcher_2d o ph NODES WGHTS ENDVALS DERVALS false false FLUX dt dX nx ny (cells (nx * ny) x4) (strip rec) mask _ _ _ HR H1) as [u2 [x2 [E2 [L2 [V2 _]]]]].
  destruct (fv_is_split o ph NODES WGHTS ENDVALS DERVALS FLUX dt dX HF valid SIG LAMS LAMC EPS inv prim ode HALF
     (cells (nx * ny) x4) u4 ub mask [nx; ny] u2 wh rec q u (or_intror eq_refl)) as [w5 [U5 F5]].
  - cbn [length]. rewrite DX. exact Ewh.
  - cbn [length]. rewrite DX. exact Er.
  - intros a Ha. apply Vr. lia.
  - rewrite Lu. exact E4.
  - apply cells_u, H4.
  - exact E2.
  - assert (H5 : holds (nx * ny) w5 (fun c => x2 (c / ny) (c mod ny))).
    { destruct U5 as [RL RV]. split; [congruence|]. intros c Hc. assert (Y0 : ny <> 0) by lia.
      assert (Ha : c / ny < nx) by (apply Nat.div_lt_upper_bound; lia). pose proof (Nat.mod_upper_bound c ny Y0) as Hb.
      destruct (RV c (x2 (c / ny) (c mod ny))) as [y [Ey ->]]; [|exact Ey]. rewrite (Nat.div_mod_eq c ny) at 1. rewrite (Nat.mul_comm ny). apply V2; assumption. }
    destruct (relax_finite (nx * ny) w5 _ H5) as [w6 [x6 [E6 H6]]]. exists w6, x6. split; [exact Eb|]. split; [|exact H6]. apply F5. rewrite Lu. exact E6.
Qed.
End C77.
Print Assumptions split_total_1d.
Print Assumptions split_total_2d.

(** ** The relaxation the code has: ode.cpp, over half a time step *)
Section CodeRelaxation.
Import Mat3 PhysModel PhysInst UtilsModel RelaxModel.
Open Scope nat_scope.
Variables (o : options) (P : par) (K : rates) (sm : vec -> R * R * R) (z : option R) (svd : mat3 -> mat3 * vec3 * mat3).
Definition code_relaxation (h : R) (c : num) : num :=
  match c with Some q => match ode_cell o P K sm (Ok z) svd 5 h q with Ok r => r | _ => None end | None => None end.
(** with one of the three rate laws, or none, the relaxation of a cell always returns *)
Theorem relaxation_returns h q : (REACTION P <= 2)%Z -> exists r, ode_cell o P K sm (Ok z) svd 5 h q = Ok r.
Proof using.
  intros HR. unfold ode_cell. destruct (ode_stepper_analytic o P svd q h) as [q1|]; [|eauto].
  destruct (proj1 (Relax2Props.reaction_step_total o P K sm z q1 h) HR) as [q2 ->]. cbn [bind]. eauto.
Qed.
(** what it adds to the density, the energy, the momenta and the concentration *)
Theorem relaxation_adds h : VISCOUS o = true -> let ode := code_relaxation h in
  adds ode 0 0 /\ adds ode 1 0 /\ (forall i, i < 3 -> adds ode (2 + i) (body P i * h)%R) /\
  ((REACTION P < 0)%Z -> MULTI o = true -> adds ode (mV o) 0).
Proof using.
  intros HV. cbv zeta.
  assert (G : forall v v', code_relaxation h (Some v) = Some v' -> forall k, (k < 5 \/ 17 <= k \/ (14 <= k /\ THERMAL o = false)) -> (k <> mV o \/ (REACTION P < 0)%Z) -> v' k = body_forces P v h k).
  { intros v v' E k Hk Hm. unfold code_relaxation, ode_cell in E. destruct (ode_stepper_analytic o P svd v h) as [q1|] eqn:E1; [|discriminate].
    destruct (ode_stepper_numerical o P K sm (Ok z) 5 q1 h) as [q2| | |] eqn:E2; try discriminate. cbn [bind] in E. injection E as <-.
    assert (K2 : q2 k = q1 k).
    { unfold ode_stepper_numerical in E2. destruct (Z.ltb_spec (-1) (REACTION P)) as [L|L]; [|now injection E2 as <-]. destruct (Rlt_dec 0 _); [|now injection E2 as <-].
      destruct (runge_kutta_launcher _ _ _ _ _) as [l| | |]; try discriminate. cbn [bind] in E2. injection E2 as <-. apply UtilsProof.set1_other. destruct Hm; [assumption|lia]. }
    rewrite K2. unfold ode_stepper_analytic in E1. rewrite HV in E1. unfold relax_distortion in E1. destruct (relax_A P svd _ h) as [A|]; [|discriminate]. cbn [obind] in E1.
    assert (D : put_A (body_forces P v h) A k = body_forces P v h k) by (unfold put_A; apply UtilsProof.setseg_out; lia).
    destruct (THERMAL o) eqn:ET; [|injection E1 as <-; exact D].
    rewrite (proj1 (Relax2Props.thermal_relaxation_keeps _ _ _ _ E1)) by lia. exact D. }
  assert (M : 14 <= mV o) by (unfold mV; rewrite HV; cbn; lia).
  split; [|split; [|split]].
  - intros v v' E. rewrite (G v v' E) by lia. unfold body_forces. rewrite UtilsProof.setseg_out by lia. ring.
  - intros v v' E. rewrite (G v v' E) by lia. unfold body_forces. rewrite UtilsProof.setseg_out by lia. ring.
  - intros i Hi v v' E. rewrite (G v v' E) by lia. unfold body_forces. rewrite UtilsProof.setseg_in by lia. replace (2 + i - 2) with i by lia. reflexivity.
  - intros HR HM v v' E. rewrite (G v v' E); [|unfold mV; destruct (THERMAL o); rewrite HV; cbn; lia|right; exact HR]. unfold body_forces. rewrite UtilsProof.setseg_out by lia. ring.
Qed.
End CodeRelaxation.
Print Assumptions relaxation_returns.
Print Assumptions relaxation_adds.

(** C75 with that relaxation: mass and energy are conserved, the total momentum grows by the body force. *)
Theorem split_code_conserves_1d o ph NODES WGHTS ENDVALS DERVALS FLUX dt dX valid SIG LAMS LAMC EPS inv prim HALF wallf P K sm z svd nx bt u ub0 ub mask x u' x' :
  runs o FLUX dX -> 1 <= N o <= nx -> bt 0 = PERIODIC -> bt 1 = PERIODIC -> holds nx u x -> full_mask [nx] mask ->
  blen ub0 = extended_dimensions [nx] (N o) -> boundaries num (N o) wallf u ub0 [nx] bt = Ok ub ->
  split_step o ph DERVALS dt dX valid NODES WGHTS ENDVALS FLUX SIG LAMS LAMC EPS inv prim (code_relaxation o P K sm z svd (dt / 2)) HALF u ub mask [nx] = Ok u' -> holds nx u' x' ->
  total1 nx x' 0 = total1 nx x 0 /\ total1 nx x' 1 = total1 nx x 1 /\
  (forall i, i < 3 -> total1 nx x' (2 + i) = (total1 nx x (2 + i)%nat + INR nx * (PhysModel.body P i * dt))%R) /\
  ((PhysModel.REACTION P < 0)%Z -> MULTI o = true -> total1 nx x' (mV o) = total1 nx x (mV o)).
Proof.
  intros HR HN B0 B1 Hu Hm Lb Eb Es Hu'. pose proof HR as [HV _].
  destruct (relaxation_adds o P K sm z svd (dt / 2) HV) as [A0 [A1 [A2 A3]]].
  pose proof (split_periodic_conserves_1d o ph NODES WGHTS ENDVALS DERVALS FLUX dt dX valid SIG LAMS LAMC EPS inv prim _ HALF wallf nx bt u ub0 ub mask x u' x' HR HN B0 B1 eq_refl Hu Hm Lb Eb Es Hu') as C.
  assert (K0 : forall k, k < 5 -> conserved o k) by (intros k Hk; left; lia).
  split; [rewrite (C 0 0%R (K0 0 ltac:(lia)) A0); ring|]. split; [rewrite (C 1 0%R (K0 1 ltac:(lia)) A1); ring|]. split.
  - intros i Hi. rewrite (C (2 + i) _ (K0 (2 + i) ltac:(lia)) (A2 i Hi)). field.
  - intros H1 H2. rewrite (C (mV o) 0%R) by (try apply A3; try assumption; right; unfold V, mV; rewrite HV, H2; unfold b2n; destruct (THERMAL o); lia). ring.
Qed.
Print Assumptions split_code_conserves_1d.
Theorem split_code_conserves_2d_partial o ph NODES WGHTS ENDVALS DERVALS FLUX dt dX valid SIG LAMS LAMC EPS inv prim HALF wallf P K sm z svd nx ny bt u ub0 ub mask x u' x' :
  runs o FLUX dX -> NO_CORNERS o = false -> 1 <= N o <= nx -> N o <= ny -> (forall k, k < 4 -> bt k = PERIODIC) ->
  holds (nx * ny) u x -> full_mask [nx; ny] mask ->
  blen ub0 = extended_dimensions [nx; ny] (N o) -> boundaries num (N o) wallf u ub0 [nx; ny] bt = Ok ub ->
  split_step o ph DERVALS dt dX valid NODES WGHTS ENDVALS FLUX SIG LAMS LAMC EPS inv prim (code_relaxation o P K sm z svd (dt / 2)) HALF u ub mask [nx; ny] = Ok u' -> holds (nx * ny) u' x' ->
  let tot x k := total2 nx ny (fun a b => x (a * ny + b)) k in
  tot x' 0 = tot x 0 /\ tot x' 1 = tot x 1 /\
  (forall i, i < 3 -> tot x' (2 + i) = (tot x (2 + i)%nat + INR (nx * ny) * (PhysModel.body P i * dt))%R) /\
  ((PhysModel.REACTION P < 0)%Z -> MULTI o = true -> tot x' (mV o) = tot x (mV o)).
Proof.
  intros HR NC HN Ny HB Hu Hm Lb Eb Es Hu'. pose proof HR as [HV _]. cbv zeta.
  destruct (relaxation_adds o P K sm z svd (dt / 2) HV) as [A0 [A1 [A2 A3]]].
  pose proof (split_periodic_conserves_2d_partial o ph NODES WGHTS ENDVALS DERVALS FLUX dt dX valid SIG LAMS LAMC EPS inv prim _ HALF wallf nx ny bt u ub0 ub mask x u' x' HR NC HN Ny HB eq_refl Hu Hm Lb Eb Es Hu') as C.
  assert (K0 : forall k, k < 5 -> conserved o k) by (intros k Hk; left; lia).
  split; [rewrite (C 0 0%R (K0 0 ltac:(lia)) A0); ring|]. split; [rewrite (C 1 0%R (K0 1 ltac:(lia)) A1); ring|]. split.
  - intros i Hi. rewrite (C (2 + i) _ (K0 (2 + i) ltac:(lia)) (A2 i Hi)). field.
  - intros H1 H2. rewrite (C (mV o) 0%R) by (try apply A3; try assumption; right; unfold V, mV; rewrite HV, H2; unfold b2n; destruct (THERMAL o); lia). ring.
Qed.
Print Assumptions split_code_conserves_2d_partial.

(** Hypotheses of C75, C76 and C77 with the shipped options: a field that is not uniform, a relaxation that changes the
    momentum, and for the uniform field the relaxed states. *)
Example split_case : let o := shipped in let ode : num -> num := option_map (fun v k => if k =? 2 then v k + 1 else v k)%R in
  exists nodes bs w inv SIG, dg_basis nodes bs w /\ weno_setup nodes bs inv SIG 1 100000 (1 / 100) /\ length nodes = N o /\
    runs o 0 (fun _ => 1%R) /\ total_cell ode /\ ode None = None /\ adds ode 2 1 /\ adds ode 0 0 /\ total_walls (fun _ _ x => x) (fun _ => PERIODIC) 2 /\
    holds 16 (mkbuf 16 (fun a => Some (Some (fun _ => INR (S a))))) (fun a _ => INR (S a)) /\ enough (N o) (4 + 2) (N o) /\
    valid_at o (fun _ => true) true (fun k => if k =? 2 then 2 else 1)%R 1 /\ ode (Some (fun _ => 1%R)) = Some (fun k => if k =? 2 then 1 + 1 else 1)%R.
Proof.
  cbv zeta. destruct dg_basis_hyps as [nodes [bs [w [G L]]]]. pose proof G as [Dn [Bn _]]. destruct (weno_hyps nodes Dn ltac:(lia)) as [bs' [inv [SIG HW]]].
  pose proof HW as [_ [Bn' _]]. rewrite Bn in Bn'. injection Bn' as <-. exists nodes, bs, w, inv, SIG.
  split; [exact G|]. split; [exact HW|]. split; [exact L|]. split; [|split; [|split; [|split; [|split; [|split; [|split; [|split; [|split]]]]]]]].
  - split; [reflexivity|]. split; [lia|]. split; lra.
  - intros v. eexists. reflexivity.
  - reflexivity.
  - intros v v' [= <-]. reflexivity.
  - intros v v' [= <-]. cbn. ring.
  - intros k Hk. unfold PERIODIC. split; [lia|]. lia.
  - split; reflexivity.
  - unfold enough. cbn. lia.
  - intros _ q _. reflexivity.
  - reflexivity.
Qed.
