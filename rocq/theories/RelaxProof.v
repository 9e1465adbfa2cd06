(** Lemmas about relaxation/analytic.cpp: the scalar part. *)
From Coq Require Import Reals ZArith Lra Psatz Lia List.
From Verif Require Import Base Options Mat3 PhysModel PhysInst PhysSpec UtilsModel UtilsProof RelaxModel RelaxSpec.
Open Scope R_scope.

Lemma pos_nonneg x : 0 <= pos x.
Proof. unfold pos, cmax. destruct (Rlt_dec 0 x); lra. Qed.
Lemma pos_id x : 0 <= x -> pos x = x.
Proof. unfold pos, cmax. destruct (Rlt_dec 0 x); lra. Qed.
Lemma pos_neg x : x <= 0 -> pos x = 0.
Proof. unfold pos, cmax. destruct (Rlt_dec 0 x); lra. Qed.
Lemma pos_zero x : pos x = 0 -> x <= 0.
Proof. unfold pos, cmax. destruct (Rlt_dec 0 x); lra. Qed.
Lemma odiv_some a b : b <> 0 -> odiv a b = Some (a / b).
Proof. intros H. unfold odiv. destruct (Req_EM_T b 0); [contradiction|reflexivity]. Qed.
Lemma odiv_inv a b x : odiv a b = Some x -> b <> 0 /\ x = a / b.
Proof. unfold odiv. destruct (Req_EM_T b 0); [discriminate|]. intros [= <-]. auto. Qed.
Lemma osqrt_some a : 0 <= a -> osqrt a = Some (sqrt a).
Proof. intros H. unfold osqrt. destruct (Rlt_dec a 0); [lra|reflexivity]. Qed.
Lemma osqrt_inv a x : osqrt a = Some x -> 0 <= a /\ x = sqrt a.
Proof. unfold osqrt. destruct (Rlt_dec a 0); [discriminate|]. intros [= <-]. split; [lra|reflexivity]. Qed.

Lemma atan_third x : 0 < cos (atan x / 3) <= 1 /\ sqrt 3 / 2 <= cos (atan x / 3).
Proof.
  pose proof (atan_bound x) as [L U]. pose proof PI_RGT_0. split; [split|].
  - apply cos_gt_0; lra.
  - apply COS_bound.
  - rewrite <- cos_PI6. destruct (Rle_dec 0 (atan x)).
    + apply cos_decr_1; lra.
    + rewrite <- (cos_neg (atan x / 3)). apply cos_decr_1; lra.
Qed.

(** the radius of the trigonometric solution *)
Lemma radius_lt u m : 0 < m -> 0 <= u -> u < 6 * (m * m) -> sqrt (6 * u) / 3 < 2 * m.
Proof.
  intros Hm Hu H. assert (sqrt (6 * u) < 6 * m); [|lra].
  rewrite <- (sqrt_Rsqr (6 * m)) by lra. apply sqrt_lt_1; unfold Rsqr; nra.
Qed.
Lemma first_range m u : 0 < m -> 0 <= u -> 3 * m * u + 2 < 18 * (m * m * m) -> 0 < first_stretch m u < 3 * m.
Proof.
  intros Hm Hu Hd. assert (H6 : u < 6 * (m * m)) by nra. pose proof (radius_lt u m Hm Hu H6) as HR. pose proof (sqrt_pos (6 * u)) as SP.
  unfold first_stretch. set (D := -2 * m * m * m + m * u + 2). destruct (Rlt_dec (Rabs D) (/ 10 ^ 12)) as [Z|Z].
  - rewrite cos_PI6. assert (0 < sqrt 3 / 2 <= 1).
    { split; [apply Rmult_lt_0_compat; [apply sqrt_lt_R0; lra|lra]|]. assert (sqrt 3 <= 2); [|lra]. rewrite <- (sqrt_Rsqr 2) by lra. apply sqrt_le_1; unfold Rsqr; lra. }
    split; nra.
  - destruct (Req_EM_T (pos (6 * u * u * u - 81 * D * D)) 0) as [Q|Q].
    + apply pos_zero in Q. assert (DN : D <> 0) by (intros E; rewrite E, Rabs_R0 in Z; apply Z; apply Rinv_0_lt_compat, pow_lt; lra).
      pose proof (cbrt_cube (54 * D)) as TC. set (T := cbrt (54 * D)) in *. assert (TN : T <> 0) by (intros E; rewrite E in TC; apply DN; lra).
      set (t := T / 6 + u / T). assert (Ht : t * t * t - u / 2 * t = D / 4 + u * u * u / (54 * D)).
      { rewrite <- TC. unfold t. replace (D / 4) with (T * T * T / 216) by (rewrite TC; field). field. exact TN. }
      assert (K : u * u * u / (54 * D) * D <= D * D / 4) by (replace (u * u * u / (54 * D) * D) with (u * u * u / 54) by (field; exact DN); lra).
      destruct (Rlt_dec 0 D) as [DP|DP].
      * assert (TP : 0 < T) by (destruct (Rlt_dec 0 T) as [|C]; [assumption|]; exfalso; nra).
        assert (tP : 0 < t) by (unfold t; assert (0 <= u / T) by (apply Rle_mult_inv_pos; lra); lra).
        assert (K2 : u * u * u / (54 * D) <= D / 4) by (apply Rmult_le_reg_r with D; [exact DP|]; lra).
        split; [unfold t in *; lra|]. destruct (Rlt_dec t (2 * m)) as [|C]; [unfold t in *; lra|]. exfalso.
        assert (M : 0 <= (t - 2 * m) * (t * t + 2 * m * t + 4 * (m * m) - u / 2)) by (apply Rmult_le_pos; nra).
        unfold D in K2, Ht. nra.
      * assert (DP' : D < 0) by lra. assert (TP : T < 0) by (destruct (Rlt_dec T 0) as [|C]; [assumption|]; exfalso; nra).
        assert (tP : t < 0). { unfold t. assert (0 <= u / - T) by (apply Rle_mult_inv_pos; lra). replace (u / T) with (- (u / - T)) by (field; lra). lra. }
        assert (K2 : D / 4 <= u * u * u / (54 * D)) by (apply Rmult_le_reg_r with (- D); [lra|]; lra).
        split; [|unfold t in *; lra]. destruct (Rlt_dec (- t) m) as [|C]; [unfold t in *; lra|]. exfalso.
        assert (M : 0 <= (- t - m) * (t * t - t * m + m * m - u / 2)) by (apply Rmult_le_pos; nra).
        unfold D in K2, Ht. nra.
    + destruct (atan_third (sqrt (pos (6 * u * u * u - 81 * D * D)) / (9 * D))) as [[C1 C2] _]. split; nra.
Qed.

Lemma stretches_ok m u : 0 < m -> 0 <= u -> 3 * m * u + 2 < 18 * (m * m * m) ->
  exists x1 x2 x3, stretches m u = Some (x1, x2, x3) /\ x1 = first_stretch m u /\ 0 < x1 /\ 0 < x2 /\ 0 < x3 /\ x1 * x2 * x3 = 1 /\
    (4 <= x1 * (3 * m - x1) * (3 * m - x1) -> x1 + x2 + x3 = 3 * m /\ x3 <= x2).
Proof.
  intros Hm Hu Hd. destruct (first_range m u Hm Hu Hd) as [L U]. unfold stretches. set (x1 := first_stretch m u) in *.
  set (t2 := 3 * m - x1) in *. assert (T2 : 0 < t2) by (unfold t2; lra). pose proof (pos_nonneg (x1 * t2 * t2 - 4)) as PN.
  rewrite odiv_some by lra. cbn [obind]. assert (QN : 0 <= pos (x1 * t2 * t2 - 4) / x1) by (apply Rle_mult_inv_pos; lra).
  rewrite osqrt_some by exact QN. cbn [obind]. set (w := sqrt (pos (x1 * t2 * t2 - 4) / x1)). assert (W : 0 <= w) by apply sqrt_pos.
  assert (X2 : 0 < / 2 * (w + t2)) by lra. assert (XX : 0 < x1 * (/ 2 * (w + t2))) by (apply Rmult_lt_0_compat; lra).
  rewrite odiv_some by lra. cbn [obind]. eexists _, _, _. split; [reflexivity|]. split; [reflexivity|]. split; [exact L|]. split; [exact X2|].
  split; [apply Rmult_lt_0_compat; [lra|apply Rinv_0_lt_compat; exact XX]|]. split; [field; split; lra|].
  intros A. assert (WW : w * w = t2 * t2 - 4 / x1).
  { unfold w. rewrite sqrt_sqrt by exact QN. rewrite pos_id by (unfold t2; lra). field. lra. }
  assert (X3 : 1 / (x1 * (/ 2 * (w + t2))) = / 2 * (t2 - w)).
  { apply Rmult_eq_reg_r with (x1 * (/ 2 * (w + t2))); [|lra]. unfold Rdiv at 1. rewrite Rmult_assoc, Rinv_l, Rmult_1_r by lra.
    replace (/ 2 * (t2 - w) * (x1 * (/ 2 * (w + t2)))) with (x1 * (t2 * t2 - w * w) / 4) by field. rewrite WW. field. lra. }
  rewrite X3. split; unfold t2; lra.
Qed.

(** ** the three sorted values *)
Lemma sort3_cases x1 x2 x3 : exists a b c,
  sort3 x1 x2 x3 0%nat = a /\ sort3 x1 x2 x3 1%nat = b /\ sort3 x1 x2 x3 2%nat = c /\ c <= b <= a /\
  a + b + c = x1 + x2 + x3 /\ a * b * c = x1 * x2 * x3 /\ a * b + b * c + c * a = x1 * x2 + x2 * x3 + x3 * x1 /\
  (forall Q : R -> Prop, Q x1 -> Q x2 -> Q x3 -> Q a /\ Q b /\ Q c) /\ x1 <= a /\ c <= x1.
Proof.
  unfold sort3, Rmax, Rmin.
  assert (G : forall y a b c : R, y = b -> (c <= b <= a /\ a + b + c = x1 + x2 + x3 /\ a * b * c = x1 * x2 * x3 /\ a * b + b * c + c * a = x1 * x2 + x2 * x3 + x3 * x1 /\
      (forall Q : R -> Prop, Q x1 -> Q x2 -> Q x3 -> Q a /\ Q b /\ Q c) /\ x1 <= a /\ c <= x1) ->
    exists a0 b0 c0, a = a0 /\ y = b0 /\ c = c0 /\ c0 <= b0 <= a0 /\ a0 + b0 + c0 = x1 + x2 + x3 /\ a0 * b0 * c0 = x1 * x2 * x3 /\
      a0 * b0 + b0 * c0 + c0 * a0 = x1 * x2 + x2 * x3 + x3 * x1 /\ (forall Q : R -> Prop, Q x1 -> Q x2 -> Q x3 -> Q a0 /\ Q b0 /\ Q c0) /\ x1 <= a0 /\ c0 <= x1).
  { intros y a b c -> H. exists a, b, c. repeat (split; [reflexivity|]). exact H. }
  destruct (Rle_dec x2 x3);
  repeat match goal with |- context [Rle_dec ?a ?b] => destruct (Rle_dec a b) end; try (exfalso; lra);
  try (assert (x1 = x2) by lra; subst x2); try (assert (x1 = x3) by lra; subst x3); try (assert (x2 = x3) by lra; subst x3);
  first [ eapply (G _ _ x1); [lra|]; repeat split; try lra; try ring; auto
        | eapply (G _ _ x2); [lra|]; repeat split; try lra; try ring; auto
        | eapply (G _ _ x3); [lra|]; repeat split; try lra; try ring; auto ].
Qed.
