(** Proofs about the thermal part of the analytic step. *)
From Coq Require Import Reals ZArith Lra Lia.
From Coquelicot Require Import Coquelicot.
From Verif Require Import Base Options Mat3 PhysModel PhysInst PhysSpec UtilsModel UtilsProof RelaxModel RelaxProof.
Open Scope R_scope.

(** ** the scalar equation w' = - (c1 - c2 w0 w^2) w / 2 *)
Section Scalar.
Variables c1 c2 w0 : R.
Hypothesis C1 : 0 < c1.
Hypothesis C2 : 0 <= c2 * w0 < c1.
Definition Den (t : R) : R := 1 - c2 / c1 * (1 - exp (- c1 * t / 2) * exp (- c1 * t / 2)) * w0.
Lemma Den_pos t : 0 < Den t.
Proof.
  unfold Den. set (e := exp (- c1 * t / 2)). assert (0 < e) by apply exp_pos.
  assert (K : 0 <= c2 * w0 / c1 < 1). { split; [apply Rdiv_le_0_compat; lra|apply Rmult_lt_reg_r with c1; [exact C1|]]. unfold Rdiv. rewrite Rmult_assoc, Rinv_l by lra. lra. }
  replace (c2 / c1 * (1 - e * e) * w0) with (c2 * w0 / c1 * (1 - e * e)) by (field; lra). assert (0 < e * e) by nra. nra.
Qed.
Definition Fac (t : R) : R := exp (- c1 * t / 2) / sqrt (Den t).
Lemma Fac_zero : Fac 0 = 1.
Proof. unfold Fac, Den. replace (- c1 * 0 / 2) with 0 by field. rewrite exp_0. replace (1 - c2 / c1 * (1 - 1 * 1) * w0) with 1 by ring. rewrite sqrt_1. field. Qed.
Lemma Fac_pos t : 0 < Fac t.
Proof. unfold Fac. apply Rdiv_lt_0_compat; [apply exp_pos|apply sqrt_lt_R0, Den_pos]. Qed.
Lemma Fac_sq t : Fac t * Fac t = exp (- c1 * t / 2) * exp (- c1 * t / 2) / Den t.
Proof.
  pose proof (Den_pos t) as D. unfold Fac. assert (sqrt (Den t) <> 0) by (apply Rgt_not_eq, sqrt_lt_R0, D). assert (HS := sqrt_sqrt (Den t) ltac:(lra)). set (S' := sqrt (Den t)) in *. clearbody S'. rewrite <- HS. field; assumption.
Qed.
Lemma Fac_derive t : is_derive Fac t (- / 2 * (c1 - c2 * w0 * (Fac t * Fac t)) * Fac t).
Proof.
  pose proof (Den_pos t) as D. assert (SQ : 0 < sqrt (Den t)) by (apply sqrt_lt_R0, D).
  assert (DD : is_derive Den t (- (c2 * w0 * (exp (- c1 * t / 2) * exp (- c1 * t / 2))))).
  { unfold Den. auto_derive; [exact I|]. unfold Rdiv. field. lra. }
  assert (SD : is_derive (fun t => sqrt (Den t)) t (- (c2 * w0 * (exp (- c1 * t / 2) * exp (- c1 * t / 2))) / (2 * sqrt (Den t)))).
  { apply (is_derive_sqrt Den t _ DD D). }
  assert (ED : is_derive (fun t => exp (- c1 * t / 2)) t (- c1 / 2 * exp (- c1 * t / 2))) by (auto_derive; [exact I|unfold Rdiv; field]).
  unfold Fac at 1. assert (Q := is_derive_div _ _ _ _ _ ED SD ltac:(lra)). eapply is_derive_ext_loc in Q; [|exists (mkposreal 1 Rlt_0_1); intros; reflexivity].
  replace (- / 2 * (c1 - c2 * w0 * (Fac t * Fac t)) * Fac t) with
    ((- c1 / 2 * exp (- c1 * t / 2) * sqrt (Den t) - exp (- c1 * t / 2) * (- (c2 * w0 * (exp (- c1 * t / 2) * exp (- c1 * t / 2))) / (2 * sqrt (Den t)))) / sqrt (Den t) ^ 2); [exact Q|].
  rewrite Fac_sq. unfold Fac. assert (HS := sqrt_sqrt (Den t) ltac:(lra)). set (S' := sqrt (Den t)) in *. clearbody S'. rewrite <- HS. field. lra.
Qed.
Lemma Fac_le t : 0 <= t -> Fac t <= 1.
Proof.
  intros Ht. assert (P := Fac_pos t). assert (Q : Fac t * Fac t <= 1); [|nra]. rewrite Fac_sq. pose proof (Den_pos t) as D.
  apply Rmult_le_reg_r with (Den t); [exact D|]. replace (exp (- c1 * t / 2) * exp (- c1 * t / 2) / Den t * Den t) with (exp (- c1 * t / 2) * exp (- c1 * t / 2)) by (field; lra). rewrite Rmult_1_l. unfold Den. rewrite <- exp_plus.
  replace (- c1 * t / 2 + - c1 * t / 2) with (- (c1 * t)) by field. set (E := exp (- (c1 * t))).
  assert (CT : 0 <= c1 * t) by (apply Rmult_le_pos; lra). assert (E1 : E <= 1). { unfold E. rewrite <- exp_0. destruct (Req_EM_T (c1 * t) 0) as [->|]; [rewrite Ropp_0; lra|]. left. apply exp_increasing. lra. }
  assert (K : c2 * w0 / c1 <= 1). { apply Rmult_le_reg_r with c1; [exact C1|]. unfold Rdiv. rewrite Rmult_assoc, Rinv_l by lra. lra. }
  replace (c2 / c1 * (1 - E) * w0) with (c2 * w0 / c1 * (1 - E)) by (field; lra). set (K' := c2 * w0 / c1) in *. assert (0 <= (1 - K') * (1 - E)) by (apply Rmult_le_pos; lra). lra.
Qed.
Lemma Den_rest t : 1 - c2 / c1 * w0 <= Den t.
Proof.
  unfold Den. assert (0 < exp (- c1 * t / 2) * exp (- c1 * t / 2)) by (apply Rmult_lt_0_compat; apply exp_pos). set (E := exp _ * exp _) in *.
  assert (0 <= c2 * w0 / c1) by (apply Rdiv_le_0_compat; lra). replace (c2 / c1 * (1 - E) * w0) with (c2 * w0 / c1 * (1 - E)) by (field; lra). replace (c2 / c1 * w0) with (c2 * w0 / c1) by (field; lra). nra.
Qed.
End Scalar.

(** ** the code *)
Section Thermal.
Variable P : par.
Notation MP := (prm P).
Variable q : vec.
Notation r := (q 0%nat).
Definition therm (q : vec) : R := q 1%nat / q 0%nat - E_2A P (q 0%nat) (get_A q) - E_3 (fun i => get_rhov q i / q 0%nat).
Hypothesis R0 : 0 < r.
Hypothesis HP : 0 < kappa MP /\ 0 < cv MP /\ 0 < ca2 MP.
Definition kk : R := 2 * ca2 MP / (kappa MP * r * cv MP).
Definition w2 : R := dot3 (get_rhoJ q) (get_rhoJ q) / (r * r).
Hypothesis TP : ca2 MP / 2 * w2 < therm q.
Lemma kk_pos : 0 < kk.
Proof. unfold kk. apply Rdiv_lt_0_compat; [lra|]. apply Rmult_lt_0_compat; [apply Rmult_lt_0_compat|]; lra. Qed.
Lemma w2_nonneg : 0 <= w2.
Proof. unfold w2, dot3, sum3. apply Rdiv_le_0_compat; [|nra]. nra. Qed.
Lemma c1_pos : 0 < therm q * kk.
Proof. apply Rmult_lt_0_compat; [|apply kk_pos]. assert (N := w2_nonneg). assert (0 <= ca2 MP / 2 * w2) by (apply Rmult_le_pos; lra). lra. Qed.
Lemma c2_range : 0 <= ca2 MP / 2 * kk * w2 < therm q * kk.
Proof.
  assert (N := w2_nonneg). assert (K := kk_pos). replace (ca2 MP / 2 * kk * w2) with (ca2 MP / 2 * w2 * kk) by ring. assert (0 <= ca2 MP / 2 * w2) by (apply Rmult_le_pos; lra).
  split; [apply Rmult_le_pos; lra|apply Rmult_lt_compat_r; lra].
Qed.
Lemma thermal_eq t : relax_thermal P q t = Some (setseg q 14 3 (fun k => q (14 + k)%nat * Fac (therm q * kk) (ca2 MP / 2 * kk) w2 t)).
Proof.
  unfold relax_thermal. fold (therm q). rewrite odiv_some. 2:{ apply Rgt_not_eq. apply Rmult_lt_0_compat; [apply Rmult_lt_0_compat|]; lra. }
  cbn [obind]. fold kk. rewrite odiv_some by (apply Rgt_not_eq, c1_pos). cbn [obind].
  assert (D := Den_pos _ _ _ c1_pos c2_range t). unfold Den in D.
  set (e := exp (- (therm q * kk) * t / 2)) in *.
  replace (1 - ca2 MP / 2 * kk / (therm q * kk) * (1 - e * e) * dot3 (get_rhoJ q) (get_rhoJ q) / (r * r)) with (1 - ca2 MP / 2 * kk / (therm q * kk) * (1 - e * e) * w2) by (unfold w2, Rdiv; ring).
  rewrite osqrt_some by lra. cbn [obind]. rewrite odiv_some by (apply Rgt_not_eq, sqrt_lt_R0, D). cbn [obind]. reflexivity.
Qed.
End Thermal.
