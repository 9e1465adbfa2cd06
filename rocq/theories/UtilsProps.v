(** Properties C38, C39, C40, C68 and C69: corrections of the distortion after a time step. *)
From Coq Require Import Reals ZArith Lra Psatz Lia List.
Import ListNotations.
From Verif Require Import Base Options Mat3 PhysModel PhysInst PhysSpec PhysProof2 RiemannProof UtilsModel UtilsProof PhysProps.
Open Scope R_scope.

(** every level-set vector selects a material *)
Definition materials_ok (o : options) (MPs : list matpar) : Prop := VISCOUS o = true /\ (LSET o < List.length MPs)%nat.
(** the material of a cell *)
Definition material_of (o : options) (MPs : list matpar) (q : vec) : option matpar := nth_error MPs (get_material_index o q).
(** cell [k] of the field [u] is [q] before and [q'] after *)
Definition cell_change (u u' : grid) (k : nat) (q q' : vec) : Prop := nth_error u k = Some q /\ nth_error u' k = Some q'.

Lemma material_some o MPs q : materials_ok o MPs -> exists m, material_of o MPs q = Some m.
Proof.
  intros [_ L]. unfold material_of. destruct (nth_error MPs (get_material_index o q)) eqn:E; [eauto|].
  apply nth_error_None in E. assert (X := material_bound o q). lia.
Qed.
Lemma each_ok o MPs f (g : matpar -> vec -> vec) u : materials_ok o MPs ->
  (forall i q m, material_of o MPs q = Some m -> f i q = Ok (g m q)) ->
  exists u', each_cell f 0 u = Ok u' /\ List.length u' = List.length u /\
    forall k q q', cell_change u u' k q q' -> exists m, material_of o MPs q = Some m /\ q' = g m q.
Proof.
  intros OK H. destruct (each_cell_total f u 0) as [u' E].
  { intros k q _. destruct (material_some o MPs q OK) as [m M]. rewrite (H _ _ _ M). eauto. }
  exists u'. destruct (each_cell_ok _ _ _ _ E) as [L C]. split; [exact E|]. split; [exact L|].
  intros k q q' [A B]. destruct (C k q A) as (x & X & Y). rewrite X in B. injection B as <-.
  destruct (material_some o MPs q OK) as [m M]. rewrite (H _ _ _ M) in Y. injection Y as <-. eauto.
Qed.

(** ** C38 *)
Theorem renorm_restores_mass o MPs u : materials_ok o MPs ->
  exists u', renorm_distortion o MPs u = Ok u' /\ List.length u' = List.length u /\
  forall k q q', cell_change u u' k q q' -> exists m, material_of o MPs q = Some m /\
    (forall j, (j < 5 \/ 14 <= j)%nat -> q' j = q j) /\
    (exists c, meq (get_A q') (mscal c (get_A q)) /\ (0 < rho0 (prm (mp_par m)) -> 0 < det3 (get_A q) -> 0 < c)) /\
    (mp_void m = false -> 0 < q 0%nat -> rho0 (prm (mp_par m)) <> 0 -> det3 (get_A q) <> 0 ->
       det3 (get_A q') = q 0%nat / rho0 (prm (mp_par m))) /\
    (mp_void m = true \/ q 0%nat <= 0 -> q' = q) /\
    (rho0 (prm (mp_par m)) <> 0 -> det3 (get_A q) = q 0%nat / rho0 (prm (mp_par m)) -> forall j, q' j = q j).
Proof.
  intros OK. assert (VI := proj1 OK).
  destruct (each_ok o MPs _ _ u OK (fun i q m => renorm_cell_ok o MPs VI i q m)) as (u' & E & L & C).
  exists u'. split; [exact E|]. split; [exact L|]. intros k q q' H. destruct (C k q q' H) as (m & M & ->). exists m.
  split; [exact M|]. clear. set (r0 := rho0 (prm (mp_par m))).
  destruct (mp_void m).
  { split; [reflexivity|]. split. { exists 1. split; [|lra]. intros i j _ _. unfold mscal. ring. }
    split; [discriminate|]. split; reflexivity. }
  destruct (Rlt_dec 0 (q 0%nat)) as [P|P].
  2:{ split; [reflexivity|]. split. { exists 1. split; [|lra]. intros i j _ _. unfold mscal. ring. }
      split; [lra|]. split; reflexivity. }
  split; [intros j; apply renormed_out|]. split.
  { eexists. split; [apply renormed_A|]. fold r0. intros A B. apply cbrt_pos. apply Rdiv_lt_0_compat; [exact P|nra]. }
  split; [intros _ _; apply renormed_det|]. split; [intros [D|D]; [discriminate|lra]|].
  intros A B j. apply renormed_fix; [exact A|lra|exact B].
Qed.
Print Assumptions renorm_restores_mass.
(** two applications are one: after the first the mass is consistent, so the second changes nothing *)
Theorem renorm_idempotent o MPs u u1 u2 : materials_ok o MPs ->
  (forall k q m, nth_error u k = Some q -> material_of o MPs q = Some m -> rho0 (prm (mp_par m)) <> 0 /\ det3 (get_A q) <> 0) ->
  renorm_distortion o MPs u = Ok u1 -> renorm_distortion o MPs u1 = Ok u2 ->
  forall k q q', cell_change u1 u2 k q q' -> forall j, q' j = q j.
Proof.
  intros OK H E1 E2 k q1 q2 [C1 C2] j.
  destruct (renorm_restores_mass o MPs u OK) as (x & X & L1 & P1). rewrite X in E1. injection E1 as ->.
  destruct (renorm_restores_mass o MPs u1 OK) as (y & Y & L2 & P2). rewrite Y in E2. injection E2 as ->.
  assert (K : (k < List.length u)%nat) by (rewrite <- L1; apply nth_error_Some; congruence).
  destruct (nth_error u k) as [q|] eqn:Q; [|apply nth_error_None in Q; lia].
  destruct (P1 k q q1 (conj Q C1)) as (m & M & K1 & _ & D & Z & _). destruct (P2 k q1 q2 (conj C1 C2)) as (m' & M' & K2 & _ & _ & Z' & F).
  assert (m' = m).
  { unfold material_of in M, M'. rewrite (material_ext o q1 q) in M'; [congruence|]. intros i Hi. apply K1.
    assert (V14 := V14 o (proj1 OK)). lia. }
  subst m'. destruct (H k q m Q M) as [H0 HD]. destruct (mp_void m) eqn:VO; [now rewrite (Z' (or_introl eq_refl))|].
  destruct (Rlt_dec 0 (q 0%nat)) as [P|P].
  - apply F; [exact H0|]. rewrite (D eq_refl P H0 HD). rewrite (K1 0%nat) by lia. reflexivity.
  - rewrite Z'; [reflexivity|]. right. rewrite (K1 0%nat) by lia. lra.
Qed.
Print Assumptions renorm_idempotent.

(** ** C39 *)
Theorem reset_preserves_pressure o MPs u : materials_ok o MPs ->
  exists u', reset_distortion o MPs u = Ok u' /\ List.length u' = List.length u /\
  forall k q q', cell_change u u' k q q' -> exists m, material_of o MPs q = Some m /\
    (forall j, (j < 5 \/ 14 <= j)%nat -> j <> 1%nat -> q' j = q j) /\
    (mp_void m = true -> q' = q) /\
    (mp_void m = false ->
       (exists c, meq (get_A q') (mscal c id3)) /\
       det3 (get_A q') = q 0%nat / rho0 (prm (mp_par m)) /\ devGsq (get_A q') = 0 /\ meq (sigma (mp_par m) q') (fun _ _ => 0) /\
       q' 1%nat = q 1%nat - q 0%nat * E_2A (mp_par m) (q 0%nat) (get_A q) /\
       (plain o (mp_par m) -> q 0%nat <> 0 ->
          internal_energy o (mp_par m) q' = internal_energy o (mp_par m) q /\
          forall sm, pressure o (mp_par m) sm q' = pressure o (mp_par m) sm q)).
Proof.
  intros OK. assert (VI := proj1 OK).
  destruct (each_ok o MPs _ _ u OK (fun i q m => reset_cell_ok o MPs VI i q m)) as (u' & E & L & C).
  exists u'. split; [exact E|]. split; [exact L|]. intros k q q' H. destruct (C k q q' H) as (m & M & ->). exists m.
  split; [exact M|]. clear - VI. destruct (mp_void m).
  { split; [reflexivity|]. split; [reflexivity|discriminate]. }
  split; [intros j; apply resetted_out|]. split; [discriminate|]. intros _.
  split; [eexists; apply resetted_A|]. split; [rewrite (det_meq _ _ (resetted_A _ q)), det_scal, cbrt_cube, det_id; ring|].
  split; [rewrite (devGsq_meq _ _ (resetted_A _ q)); apply devGsq_iso|]. split; [apply resetted_stress|]. split; [apply resetted_1|].
  intros (_ & HM & HR) H0. split; [apply resetted_energy; assumption|]. intro sm. apply resetted_pressure; assumption.
Qed.
Print Assumptions reset_preserves_pressure.

(** ** C40 *)
Theorem rotate_preserves_stress o svd MPs u : materials_ok o MPs ->
  exists u', rotate_distortion o svd MPs u = Ok u' /\ List.length u' = List.length u /\
  forall k q q', cell_change u u' k q q' -> exists m, material_of o MPs q = Some m /\
    (forall j, (j < 5 \/ 14 <= j)%nat -> q' j = q j) /\
    (is_svd (get_A q) (fst (svd (get_A q))) (snd (svd (get_A q))) ->
       meq (gram (get_A q')) (gram (get_A q)) /\ devGsq (get_A q') = devGsq (get_A q) /\
       Rabs (det3 (get_A q')) = Rabs (det3 (get_A q)) /\
       (forall P, meq (sigma P q') (sigma P q)) /\
       (forall P sm, plain o P -> internal_energy o P q' = internal_energy o P q /\ pressure o P sm q' = pressure o P sm q)).
Proof.
  intros OK. assert (VI := proj1 OK).
  destruct (each_ok o MPs _ _ u OK (fun i q m => rotate_cell_ok o svd MPs VI i q m)) as (u' & E & L & C).
  exists u'. split; [exact E|]. split; [exact L|]. intros k q q' H. destruct (C k q q' H) as (m & M & ->). exists m.
  split; [exact M|]. clear - VI. destruct (mp_void m).
  { split; [reflexivity|]. intros _. repeat split; reflexivity. }
  split; [intros j; apply rotated_out|]. intro S.
  assert (G := rotated_gram svd q S). assert (D := devGsq_gram _ _ G).
  split; [exact G|]. split; [exact D|].
  split. { assert (X := det_meq _ _ G). unfold gram in X. rewrite !det_mmul, !det_mtr in X.
    rewrite <- !sqrt_Rsqr_abs. unfold Rsqr. now rewrite X. }
  split. { intros P i j Hi Hj. rewrite !sigma_shape, (rotated_out svd q 0) by lia. rewrite (shape_gram _ _ G i j Hi Hj). reflexivity. }
  intros P sm (_ & HM & HR).
  assert (IE : internal_energy o P (rotated svd q) = internal_energy o P q).
  { unfold internal_energy, E_2A. rewrite VI, D, (rotated_out svd q 0), (rotated_out svd q 1) by lia.
    replace (rotated svd q (mV o)) with (q (mV o)) by (symmetry; apply rotated_out; unfold mV; rewrite VI; cbn [b2n]; lia).
    unfold E_3, E_2J, dot3, sum3, get_rhov, get_rhoJ. cbn [Nat.add]. rewrite !rotated_out by lia. reflexivity. }
  split; [exact IE|]. unfold pressure. rewrite HM, IE, (rotated_out svd q 0) by lia. reflexivity.
Qed.
Print Assumptions rotate_preserves_stress.

(** ** C69 *)
(** The sign of the determinant is not kept: an exact decomposition of the identity with a reflection as V. *)
Definition mirror : mat3 := diag3 (fun i => if Nat.eqb i 2 then -1 else 1).
Definition unit_cell : vec := fun k => if (Nat.eqb k 0 || Nat.eqb k 5 || Nat.eqb k 9 || Nat.eqb k 13)%bool then 1 else 0.
Lemma mirror_orth : orthogonal mirror.
Proof. split; intros i j Hi Hj; idx3 i; idx3 j; unfold mirror, diag3; m3; ring. Qed.
Theorem rotation_keeps_orientation_refuted : exists o svd MPs u u',
  materials_ok o MPs /\ (forall q, In q u -> is_svd (get_A q) (fst (svd (get_A q))) (snd (svd (get_A q)))) /\
  rotate_distortion o svd MPs u = Ok u' /\ exists q q', cell_change u u' 0 q q' /\ det3 (get_A q) = 1 /\ det3 (get_A q') = -1.
Proof.
  set (svd := fun _ : mat3 => ((fun _ => 1) : vec3, mirror)).
  set (m := mkmatpar (demo_par JWL 300) false).
  assert (OK : materials_ok shipped [m; m; m]) by (split; [reflexivity|cbn; lia]).
  destruct (rotate_preserves_stress shipped svd [m; m; m] [unit_cell] OK) as (u' & E & L & C).
  exists shipped, svd, [m; m; m], [unit_cell], u'. split; [exact OK|]. split.
  { intros q [<-|[]]. cbn [svd fst snd]. split; [intros; lra|]. split; [apply mirror_orth|]. exists mirror. split; [apply mirror_orth|].
    intros i j Hi Hj. idx3 i; idx3 j; unfold mirror, diag3, get_A, unit_cell; m3; cbn; ring. }
  split; [exact E|]. exists unit_cell, (rotated svd unit_cell).
  assert (N : nth_error u' 0 = Some (rotated svd unit_cell)).
  { destruct (each_cell_ok _ _ _ _ E) as [_ C']. destruct (C' 0%nat unit_cell eq_refl) as (x & X & Y).
    rewrite (rotate_cell_ok shipped svd [m; m; m] eq_refl _ _ m) in Y; [cbn [m mp_void] in Y; injection Y as <-; exact X|].
    assert (B := material_bound shipped unit_cell). cbn [LSET shipped] in B.
    destruct (get_material_index shipped unit_cell) as [|[|[|]]]; [reflexivity..|lia]. }
  split; [split; [reflexivity|exact N]|]. split; [unfold det3, get_A, unit_cell; cbn; ring|].
  rewrite (det_meq _ _ (rotated_A svd unit_cell)). cbn [svd fst snd]. unfold mirror, diag3. m3. ring.
Qed.
Print Assumptions rotation_keeps_orientation_refuted.

(** ** C68 *)
(** the mean square stretch of the metric tensor, relative to its volume part; 1 for a pure rotation or dilation *)
Definition stretch (A : mat3) : R := trace3 (gram A) / 3 / Rpower (Rabs (det3 A)) (2 / 3).
Lemma stretch_cell svd tol q : is_svd (get_A q) (fst (svd (get_A q))) (snd (svd (get_A q))) ->
  (contorted_cell svd tol q = true <-> det3 (get_A q) <> 0 /\ tol < stretch (get_A q) - 1).
Proof.
  intro S. unfold contorted_cell, stretch. rewrite (svd_trace _ _ _ S), (svd_det _ _ _ S). cbv zeta.
  assert (D := svd_det _ _ _ S). set (s := fst (svd (get_A q))) in *.
  assert (P : 0 <= s 0%nat * s 1%nat * s 2%nat) by (rewrite <- D; apply Rabs_pos).
  destruct (Req_EM_T (s 0%nat * s 1%nat * s 2%nat) 0) as [Z|Z].
  { split; [discriminate|]. intros [H _]. exfalso. apply H. rewrite Z in D.
    destruct (Req_dec (det3 (get_A q)) 0) as [E|E]; [exact E|]. apply Rabs_no_R0 in E. lra. }
  assert (N : det3 (get_A q) <> 0). { intro E. rewrite E, Rabs_R0 in D. lra. }
  set (p := s 0%nat * s 1%nat * s 2%nat) in *. assert (PP : 0 < p) by lra.
  assert (C : cbrt p * cbrt p = Rpower p (2 / 3)).
  { unfold cbrt. destruct (Rlt_dec 0 p); [|lra]. rewrite <- Rpower_plus. f_equal. lra. }
  rewrite C. assert (RP : 0 < Rpower p (2 / 3)) by apply exp_pos.
  replace ((s 0%nat * s 0%nat / Rpower p (2 / 3) + s 1%nat * s 1%nat / Rpower p (2 / 3) + s 2%nat * s 2%nat / Rpower p (2 / 3)) / 3)
    with ((s 0%nat * s 0%nat + s 1%nat * s 1%nat + s 2%nat * s 2%nat) / 3 / Rpower p (2 / 3)) by (field; lra).
  destruct (Rlt_dec tol _) as [H|H]; split; try tauto; try discriminate.
Qed.
Theorem contorted_spec o svd tol u : VISCOUS o = true ->
  (forall q, In q u -> is_svd (get_A q) (fst (svd (get_A q))) (snd (svd (get_A q)))) ->
  exists b, contorted o svd tol u = Ok b /\
    (b = true <-> exists q, In q u /\ det3 (get_A q) <> 0 /\ tol < stretch (get_A q) - 1).
Proof.
  intros VI S. unfold contorted. assert (X := V14 o VI). destruct (Nat.ltb_spec (V o) 14); [lia|].
  eexists. split; [reflexivity|]. rewrite existsb_exists. split; intros (q & I & H'); exists q; split; try exact I; apply (stretch_cell svd tol q (S q I)), H'.
Qed.
Print Assumptions contorted_spec.
(** a reset clears the condition that triggered it *)
Theorem reset_cures o svd MPs tol u u' : materials_ok o MPs -> 0 <= tol -> reset_distortion o MPs u = Ok u' ->
  (forall q m, In q u -> material_of o MPs q = Some m -> mp_void m = false) ->
  (forall q, In q u' -> is_svd (get_A q) (fst (svd (get_A q))) (snd (svd (get_A q)))) ->
  contorted o svd tol u' = Ok false.
Proof.
  intros OK T E NV S. destruct (contorted_spec o svd tol u' (proj1 OK) S) as (b & B & H). rewrite B. f_equal.
  destruct b; [|reflexivity]. exfalso. destruct (proj1 H eq_refl) as (q' & I & D & ST).
  destruct (reset_preserves_pressure o MPs u OK) as (x & X & L & C). rewrite X in E. injection E as ->.
  destruct (In_nth_error _ _ I) as [k K].
  assert (KL : (k < List.length u)%nat) by (rewrite <- L; apply nth_error_Some; congruence).
  destruct (nth_error u k) as [q|] eqn:Q; [|apply nth_error_None in Q; lia].
  destruct (C k q q' (conj Q K)) as (m & M & _ & _ & HV). destruct (HV (NV q m (nth_error_In _ _ Q) M)) as ((c & A) & _).
  clear - A D ST T. revert D ST. unfold stretch. rewrite (det_meq _ _ A). unfold gram, trace3, sum3.
  rewrite !(mmul_meq _ _ _ _ (mtr_meq _ _ A) A) by lia. rewrite det_scal, det_id. intros D ST.
  assert (c <> 0) by (intro; subst; lra).
  assert (F : Rpower (Rabs (c * c * c * 1)) (2 / 3) = c * c).
  { rewrite Rmult_1_r, !Rabs_mult. assert (P : 0 < Rabs c) by now apply Rabs_pos_lt.
    replace (Rabs c * Rabs c * Rabs c) with (Rpower (Rabs c) 3).
    - rewrite Rpower_mult. replace (3 * (2 / 3)) with (INR 2) by (cbn; lra). rewrite Rpower_pow by exact P.
      rewrite <- (Rmult_1_r (Rabs c ^ 2)). cbn. rewrite <- Rabs_mult || idtac. unfold Rabs. destruct (Rcase_abs c); ring.
    - replace 3 with (INR 3) by (cbn; lra). rewrite Rpower_pow by exact P. cbn. ring. }
  rewrite F in ST. replace ((_ + _ + _) / 3 / (c * c)) with 1 in ST; [lra|]. m3. field. assumption.
Qed.
Print Assumptions reset_cures.

(** The hypotheses hold for the sheared state of the shipped configuration, its mass being inconsistent. *)
Example utils_hyps : exists MPs, materials_ok shipped MPs /\ exists m, material_of shipped MPs sheared = Some m /\ mp_void m = false /\
  0 < sheared 0%nat /\ rho0 (prm (mp_par m)) <> 0 /\ det3 (get_A sheared) <> 0 /\ plain shipped (mp_par m).
Proof.
  set (m := mkmatpar (demo_par SHOCK_MG 300) false). exists [m; m; m]. split; [split; [reflexivity|cbn; lia]|]. exists m. split.
  { assert (B := material_bound shipped sheared). cbn [LSET shipped] in B. unfold material_of.
    destruct (get_material_index shipped sheared) as [|[|[|]]]; [reflexivity..|lia]. }
  split; [reflexivity|]. split; [unfold sheared; cbn; lra|]. split; [cbn; lra|]. split; [unfold det3, get_A, sheared; cbn; lra|].
  repeat split; cbn; try reflexivity; lia.
Qed.
Example svd_hyps : is_svd (diag3 (fun i => INR (3 - i))) (fun i => INR (3 - i)) id3.
Proof.
  assert (O : orthogonal id3) by (split; intros i j Hi Hj; idx3 i; idx3 j; m3; ring).
  split; [intros; apply pos_INR|]. split; [exact O|]. exists id3. split; [exact O|].
  intros i j Hi Hj. idx3 i; idx3 j; unfold diag3; m3; cbn; ring.
Qed.
