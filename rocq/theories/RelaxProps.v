(** C59-C61 and C71, C72: the source-term steps. *)
From Coq Require Import Reals ZArith Lra Psatz Lia List.
From Coquelicot Require Import Coquelicot.
From Verif Require Import Base Options Mat3 PhysModel PhysInst PhysSpec PhysProof2 RiemannProof UtilsModel UtilsProof RelaxModel RelaxSpec RelaxProof RelaxProof2 RelaxProof3 RelaxProof4 RelaxProof5.
Open Scope R_scope.

(** ** C59 *)
Lemma put_A_get q A : meq (get_A (put_A q A)) A.
Proof.
  intros i j Hi Hj. unfold get_A, put_A. rewrite setseg_in by lia. replace (5 + 3 * i + j - 5)%nat with (j + i * 3)%nat by lia.
  rewrite Nat.div_add, Nat.mod_add by lia. rewrite Nat.div_small, Nat.mod_small by lia. reflexivity.
Qed.
Lemma put_A_out q A k : (k < 5 \/ 14 <= k)%nat -> put_A q A k = q k.
Proof. intros H. unfold put_A. apply setseg_out. lia. Qed.
Lemma put_A_same q A k : meq A (get_A q) -> put_A q A k = q k.
Proof.
  intros H. destruct (Nat.lt_ge_cases k 5); [apply put_A_out; lia|]. destruct (Nat.lt_ge_cases k 14); [|apply put_A_out; lia].
  unfold put_A. rewrite setseg_in by lia. assert ((k - 5) / 3 < 3)%nat by (apply Nat.div_lt_upper_bound; lia). assert ((k - 5) mod 3 < 3)%nat by (apply Nat.mod_upper_bound; lia).
  rewrite H by assumption. unfold get_A. f_equal. pose proof (Nat.div_mod (k - 5) 3 ltac:(lia)). lia.
Qed.
(** A moderately sheared state is relaxed to a finite one: the determinant and the singular directions are kept, and
    nothing but the distortion is changed. A power law whose time cannot be computed is excluded: see
    relaxation_overshoot_refuted and DESIGN.md. *)
Theorem relaxation_keeps_partial P svd q dt U s W x :
  relaxing P -> svd (get_A q) = (U, s, W) -> svd_of (get_A q) (U, s, W) -> det3 (get_A q) <> 0 -> scaled s x -> moderate x -> 0 <= dt ->
  (POWER_LAW P = true -> relax_distortion P svd q dt <> None) ->
  exists q' s', relax_distortion P svd q dt = Some q' /\
    det3 (get_A q') = det3 (get_A q) /\ same_directions (get_A q) (get_A q') U s s' W /\
    s' 0%nat * s' 1%nat * s' 2%nat = s 0%nat * s 1%nat * s 2%nat /\
    forall k, (k < 5 \/ 14 <= k)%nat -> q' k = q k.
Proof.
  intros [R1 [R2 [R3 R4]]] ES HS HD HX HM Hdt HN. unfold relax_distortion in *.
  assert (Q : exists A' s', relax_A P svd (get_A q) dt = Some A' /\ meq A' (assemble U s' W) /\ descending s' /\ 0 < s' 2%nat /\ s' 0%nat * s' 1%nat * s' 2%nat = s 0%nat * s 1%nat * s 2%nat).
  { destruct (Rlt_dec (spread x) (/ 10 ^ 12)) as [L|L].
    - exists (get_A q), s. rewrite (relax_A_eq P svd _ U W s x ES HS HD HX). destruct (Rle_dec (/ 10 ^ 12) (spread x)); [lra|]. split; [reflexivity|].
      assert (SP := s_pos _ _ _ _ HS HD 2 ltac:(lia)). destruct HS as [_ [_ [E [O _]]]]. auto.
    - assert (HT : exists tau, nondimensionalized_time P (s 0%nat * s 1%nat * s 2%nat * rho0 (prm P)) (cbrt (s 0%nat * s 1%nat * s 2%nat)) (mean x) (spread x) dt = Some tau).
      { destruct (POWER_LAW P) eqn:PL; [|eexists; apply time_newton; [repeat split; assumption|exact PL]].
        specialize (HN eq_refl). rewrite (relax_A_eq P svd _ U W s x ES HS HD HX) in HN. destruct (Rle_dec (/ 10 ^ 12) (spread x)); [|lra].
        destruct (nondimensionalized_time _ _ _ _ _ _) as [tau|]; [eauto|]. exfalso. apply HN. reflexivity. }
      destruct HT as [tau ET]. assert (TP : 0 <= tau).
      { apply (time_nonneg P (conj R1 (conj R2 R3)) R4 _ _ _ _ _ _ (Rmult_lt_0_compat _ _ (prod_pos _ _ _ _ HS HD) R1) Hdt ET). }
      destruct (measures_range _ _ tau (spread_nonneg x) HM TP) as [M1 M2].
      apply (relax_stretched P svd _ U W s x ES HS HD HX dt tau _ _ ET (Rnot_lt_le _ _ L) eq_refl eq_refl); [lra|]. apply measures_domain; assumption. }
  destruct Q as [A' [s' [E [M [O [SP PE]]]]]]. rewrite E. cbn [obind]. exists (put_A q A'), s'. split; [reflexivity|].
  assert (GA : meq (get_A (put_A q A')) (assemble U s' W)) by (intros i j Hi Hj; rewrite put_A_get by assumption; apply M; assumption).
  destruct HS as [HU [HW [HE HO]]]. split; [|split; [|split]].
  - rewrite (det_meq _ _ GA), (det_meq _ _ HE), !det_assemble, PE. reflexivity.
  - split; [repeat split; try assumption; apply HU || apply HW || apply HO|]. repeat split; try (apply HU || apply HW); try assumption; try lra; apply O.
  - exact PE.
  - intros k Hk. apply put_A_out, Hk.
Qed.
Print Assumptions relaxation_keeps_partial.

(** A step of length zero changes nothing if the stretches are nearly equal, if one is above and two are below the
    mean (or one equals the mean), or if the two largest are equal; in the remaining case it does:
    relaxation_zero_refuted. *)
Theorem relaxation_zero_partial P svd q U s W x :
  svd (get_A q) = (U, s, W) -> svd_of (get_A q) (U, s, W) -> det3 (get_A q) <> 0 -> scaled s x ->
  spread x < / 10 ^ 12 \/ skew x = 0 \/ / 10 ^ 12 <= skew x \/ (skew x <= - / 10 ^ 12 /\ x 0%nat = x 1%nat) ->
  (spread x < / 10 ^ 12 \/ relax_distortion P svd q 0 <> None) ->
  exists q', relax_distortion P svd q 0 = Some q' /\ forall k, q' k = q k.
Proof.
  intros ES HS HD HX HK HN. unfold relax_distortion in *.
  assert (Q : exists A', relax_A P svd (get_A q) 0 = Some A' /\ meq A' (get_A q)).
  { destruct (Rlt_dec (spread x) (/ 10 ^ 12)) as [L|L].
    - exists (get_A q). rewrite (relax_A_eq P svd _ U W s x ES HS HD HX). destruct (Rle_dec (/ 10 ^ 12) (spread x)); [lra|]. split; [reflexivity|intros i j _ _; reflexivity].
    - destruct HK as [HK|HK]; [lra|]. destruct HN as [HN|HN]; [lra|].
      assert (HT : exists tau, nondimensionalized_time P (s 0%nat * s 1%nat * s 2%nat * rho0 (prm P)) (cbrt (s 0%nat * s 1%nat * s 2%nat)) (mean x) (spread x) 0 = Some tau).
      { rewrite (relax_A_eq P svd _ U W s x ES HS HD HX) in HN. destruct (Rle_dec (/ 10 ^ 12) (spread x)); [|lra].
        destruct (nondimensionalized_time _ _ _ _ _ _) as [tau|]; [eauto|]. exfalso. apply HN. reflexivity. }
      destruct HT as [tau ET]. apply (relax_zero P svd _ U W s x ES HS HD HX tau _ _ ET eq_refl eq_refl).
      assert (XD := x_desc _ _ _ _ _ HS HD HX). assert (XP := x_prod _ _ _ _ _ HS HD HX).
      set (m := mean x) in *. set (t := fun i => x i - m).
      destruct (first_root (t 0%nat) (t 1%nat) (t 2%nat) m) as [F|F].
      + unfold t, m, mean, sum3. field.
      + unfold t. lra.
      + unfold t. rewrite <- XP. ring.
      + unfold skew in HK. fold m in HK. unfold t. destruct HK as [HK|[HK|[HK E]]]; [left; exact HK|right; left; exact HK|right; right]. split; [exact HK|].
        rewrite E. assert (x 2%nat = 3 * m - 2 * x 1%nat) by (unfold m, mean, sum3; rewrite E; field). rewrite H. ring.
      + left. replace (spread x) with (t 0%nat * t 0%nat + t 1%nat * t 1%nat + t 2%nat * t 2%nat) by reflexivity. rewrite F. unfold t. ring.
      + right. replace (spread x) with (t 0%nat * t 0%nat + t 1%nat * t 1%nat + t 2%nat * t 2%nat) by reflexivity. rewrite F. unfold t. ring. }
  destruct Q as [A' [E M]]. rewrite E. cbn [obind]. exists (put_A q A'). split; [reflexivity|]. intros k. apply put_A_same, M.
Qed.
Print Assumptions relaxation_zero_partial.

(** The new distortion has the measures the linearised equations give, as long as these belong to three real stretches
    of non-negative skew. *)
Theorem relaxation_measures_partial P svd q dt U s W x tau q' :
  svd (get_A q) = (U, s, W) -> svd_of (get_A q) (U, s, W) -> det3 (get_A q) <> 0 -> scaled s x -> / 10 ^ 12 <= spread x ->
  nondimensionalized_time P (s 0%nat * s 1%nat * s 2%nat * rho0 (prm P)) (cbrt (s 0%nat * s 1%nat * s 2%nat)) (mean x) (spread x) dt = Some tau ->
  let a := 3 * (mean x - 1) - spread x / 3 in let b := 2 * (mean x - 1) - spread x / 3 in
  let m := 1 + a * exp (-6 * tau) - b * exp (-9 * tau) in let u := 6 * a * exp (-6 * tau) - 9 * b * exp (-9 * tau) in
  let D := -2 * m * m * m + m * u + 2 in
  0 < m -> 0 <= u -> u < 6 * (m * m) -> (D = 0 \/ / 10 ^ 12 <= D) -> 81 * D * D <= 6 * u * u * u ->
  relax_distortion P svd q dt = Some q' ->
  exists s' x', same_directions (get_A q) (get_A q') U s s' W /\ scaled s' x' /\ mean x' = m /\ spread x' = u.
Proof.
  intros ES HS HD HX HU ET a b m u D Hm Hu H6 HD1 HD2 E. unfold relax_distortion in E.
  rewrite (relax_A_eq P svd _ U W s x ES HS HD HX) in E. destruct (Rle_dec (/ 10 ^ 12) (spread x)); [|contradiction]. rewrite ET in E. cbn [obind] in E.
  assert (Ea : measure_a (mean x) (spread x) = a) by (unfold measure_a, a; ring). assert (Eb : measure_b (mean x) (spread x) = b) by (unfold measure_b, b; ring).
  assert (Em : measure_m (mean x) (spread x) tau = m) by (unfold measure_m; rewrite Ea, Eb; reflexivity).
  assert (Eu : measure_u (mean x) (spread x) tau = u) by (unfold measure_u; rewrite Ea, Eb; apply pos_id; exact Hu). rewrite Em, Eu in E.
  destruct (stretches_measures m u Hm Hu HD1 HD2 H6) as [y1 [y2 [y3 [SE [P1 [P2 [P3 [PP [PS PU]]]]]]]]]. rewrite SE in E. cbn [obind] in E.
  set (d := cbrt (s 0%nat * s 1%nat * s 2%nat)) in *. assert (DP : 0 < d) by apply (d_pos _ _ _ _ HS HD).
  destruct (rebuild_ok U W d y1 y2 y3 P1 P2 P3) as [A' [y [EB [EY [YP [YD [YE M]]]]]]]. rewrite EB in E. cbn [obind] in E. injection E as <-.
  exists (fun i => d * sqrt (y i)), y. assert (Q := fun i H => Rlt_le _ _ (YP i H)). split; [|split; [|]].
  - split; [exact HS|]. destruct HS as [HU' [HW [HE HO]]]. split; [exact HU'|]. split; [exact HW|]. split; [|split].
    + intros i j Hi Hj. rewrite put_A_get by assumption. apply M; assumption.
    + destruct YD as [Y1 Y2]. split; apply Rmult_le_compat_l; try lra; apply sqrt_le_1; try assumption; apply Q; lia.
    + apply Rmult_le_pos; [lra|apply sqrt_pos].
  - exists d. split.
    + replace (d * sqrt (y 0%nat) * (d * sqrt (y 1%nat)) * (d * sqrt (y 2%nat))) with ((d * d * d) * (sqrt (y 0%nat) * sqrt (y 1%nat) * sqrt (y 2%nat))) by ring.
      rewrite <- !sqrt_mult by (try apply Rmult_le_pos; apply Q; lia). rewrite YE, PP, sqrt_1. ring.
    + intros i Hi. replace (d * sqrt (y i) * (d * sqrt (y i))) with (sqrt (y i) * sqrt (y i) * (d * d)) by ring. rewrite sqrt_sqrt by (apply Q; exact Hi). reflexivity.
  - destruct (sort3_cases y1 y2 y3) as [p [q1 [r1 [E0 [E1 [E2 [_ [S1 [_ [S2 _]]]]]]]]]]. rewrite <- EY in E0, E1, E2.
    assert (MN : mean y = m) by (unfold mean, sum3; rewrite E0, E1, E2, S1, PS; field). split; [exact MN|]. unfold spread. rewrite MN. unfold sum3. rewrite E0, E1, E2.
    rewrite <- PU. replace ((p - m) * (p - m) + (q1 - m) * (q1 - m) + (r1 - m) * (r1 - m)) with ((p + q1 + r1) * (p + q1 + r1) - 2 * (p * q1 + q1 * r1 + r1 * p) - 2 * m * (p + q1 + r1) + 3 * m * m) by ring.
    rewrite S1, S2. ring.
Qed.
Print Assumptions relaxation_measures_partial.

(** The source term of the distortion changes the singular values along the singular directions only ... *)
Theorem relaxation_source o P K sm Q th U s W : VISCOUS o = true -> svd_of (get_A Q) (U, s, W) -> theta1inv P Q = Some th ->
  forall src, full_source o P K sm Q = Ok (Some src) ->
  let c := c_s2 (prm P) (Q 0%nat) * th in
  meq (get_A src) (assemble U (fun i => - c * (s i * (s i * s i - sum3 (fun k => s k * s k) / 3))) W).
Proof.
  intros VI [HU [HW [HE _]]] ET src E c. unfold full_source in E. rewrite VI, ET in E. apply bind_ok in E. destruct E as [rr [_ E]]. destruct rr as [rr|]; [|discriminate]. injection E as <-.
  intros i j Hi Hj. assert (G := AdevG_assemble U W s HU HW i j Hi Hj).
  assert (AE : AdevG (get_A Q) i j = AdevG (assemble U s W) i j).
  { assert (HE' := fun a b Ha Hb => HE a b Ha Hb). unfold AdevG, mmul, mtr, sum3. rewrite !HE' by lia. reflexivity. }
  assert (SC : forall v w, assemble U (fun i => v * w i) W i j = v * assemble U w W i j) by (intros v w; unfold assemble, diag, mmul, mtr, sum3; cbn [Nat.eqb]; ring).
  rewrite (SC (- c) (fun i => s i * (s i * s i - sum3 (fun k => s k * s k) / 3))), <- G, <- AE.
  assert (MV : (14 <= mV o)%nat) by (unfold mV; rewrite VI; cbn [b2n]; lia).
  assert (D1 : ((5 + 3 * i + j - 5) / 3 = i)%nat) by (replace (5 + 3 * i + j - 5)%nat with (j + i * 3)%nat by lia; rewrite Nat.div_add, Nat.div_small by lia; reflexivity).
  assert (D2 : ((5 + 3 * i + j - 5) mod 3 = j)%nat) by (replace (5 + 3 * i + j - 5)%nat with (j + i * 3)%nat by lia; rewrite Nat.mod_add, Nat.mod_small by lia; reflexivity).
  unfold get_A at 1, source. rewrite VI.
  assert (B : forall r : vec, setseg r 5 9 (fun k => - dEdA_s P Q (k / 3)%nat (k mod 3)%nat * th) (5 + 3 * i + j)%nat = - c * AdevG (get_A Q) i j).
  { intros r. rewrite setseg_in by lia. rewrite D1, D2. unfold dEdA_s, mscal, c. ring. }
  cbv zeta. destruct (Z.ltb (-1) (REACTION P)); [rewrite set1_other by lia|]; (destruct (THERMAL o); [rewrite setseg_out by lia|]); apply B.
Qed.
Print Assumptions relaxation_source.
(** ... and so the scaled squares of the singular values and their measures obey these equations (in a time in which the
    rate is 3): the evolution of the measures is closed. *)
Theorem anisotropy_equations (X : nat -> R -> R) t :
  let x := fun i => X i t in
  x 0%nat * x 1%nat * x 2%nat = 1 ->
  (forall i, (i < 3)%nat -> is_derive (X i) t (- 3 * x i * (x i - mean x))) ->
  is_derive (fun t => mean (fun i => X i t)) t (- spread x) /\
  is_derive (fun t => spread (fun i => X i t)) t (18 * (mean x * mean x * mean x - 1) - 15 * mean x * spread x).
Proof.
  intros x HP HD. assert (D0 := HD 0%nat ltac:(lia)). assert (D1 := HD 1%nat ltac:(lia)). assert (D2 := HD 2%nat ltac:(lia)).
  assert (X0 : ex_derive (X 0%nat) t) by (eexists; exact D0). assert (X1 : ex_derive (X 1%nat) t) by (eexists; exact D1). assert (X2 : ex_derive (X 2%nat) t) by (eexists; exact D2).
  assert (E0 := is_derive_unique _ _ _ D0). assert (E1 := is_derive_unique _ _ _ D1). assert (E2 := is_derive_unique _ _ _ D2).
  unfold mean, spread, mean, sum3. split.
  - auto_derive; [repeat split; assumption|]. change (fun x0 : R => X 0%nat x0) with (X 0%nat). change (fun x0 : R => X 1%nat x0) with (X 1%nat). change (fun x0 : R => X 2%nat x0) with (X 2%nat). rewrite E0, E1, E2. unfold mean, sum3, x. field.
  - auto_derive; [repeat split; assumption|]. change (fun x0 : R => X 0%nat x0) with (X 0%nat). change (fun x0 : R => X 1%nat x0) with (X 1%nat). change (fun x0 : R => X 2%nat x0) with (X 2%nat). rewrite E0, E1, E2. unfold mean, sum3. fold (x 0%nat) (x 1%nat) (x 2%nat). 
    replace (18 * ((x 0%nat + x 1%nat + x 2%nat) / 3 * ((x 0%nat + x 1%nat + x 2%nat) / 3) * ((x 0%nat + x 1%nat + x 2%nat) / 3) - 1))
      with (18 * ((x 0%nat + x 1%nat + x 2%nat) / 3 * ((x 0%nat + x 1%nat + x 2%nat) / 3) * ((x 0%nat + x 1%nat + x 2%nat) / 3) - x 0%nat * x 1%nat * x 2%nat)) by (rewrite HP; reflexivity).
    field.
Qed.
Print Assumptions anisotropy_equations.

(** The step solves the linearisation of these equations around the isotropic state (mean 1, spread 0). *)
Theorem relaxation_linearised m0 u0 : 0 <= u0 ->
  let a := 3 * (m0 - 1) - u0 / 3 in let b := 2 * (m0 - 1) - u0 / 3 in
  let m t := 1 + a * exp (-6 * t) - b * exp (-9 * t) in let u t := 6 * a * exp (-6 * t) - 9 * b * exp (-9 * t) in
  (m 0 = m0 /\ u 0 = u0) /\
  (forall t, is_derive m t (- u t) /\ is_derive u t (54 * (m t - 1) - 15 * u t)) /\
  (* the right-hand side of the second equation is the linear part at (1, 0) of the one of anisotropy_equations *)
  (forall v w, is_derive (fun h => 18 * ((1 + h * v) * (1 + h * v) * (1 + h * v) - 1) - 15 * (1 + h * v) * (h * w)) 0 (54 * v - 15 * w)) /\
  (* and these are the functions of the code *)
  forall t, measure_m m0 u0 t = m t /\ measure_u m0 u0 t = Rmax 0 (u t).
Proof.
  intros H a b m u. split; [|split; [|split]].
  - unfold m, u. rewrite !Rmult_0_r, exp_0. unfold a, b. split; field.
  - intros t. unfold m, u. split; auto_derive; try exact I; ring.
  - intros v w. auto_derive; [exact I|]. ring.
  - intros t. assert (Ea : measure_a m0 u0 = a) by (unfold measure_a, a; ring). assert (Eb : measure_b m0 u0 = b) by (unfold measure_b, b; ring).
    unfold measure_m, measure_u. rewrite Ea, Eb. split; [reflexivity|]. fold (u t). unfold pos, cmax, Rmax. destruct (Rlt_dec 0 (u t)), (Rle_dec 0 (u t)); lra.
Qed.
Print Assumptions relaxation_linearised.

(** The time scale is that of the source term for a Newtonian fluid whose shear sound speed does not depend on the
    density: with [c] as in relaxation_source, the singular values [s] and [d^3] their product, the rate of the scaled
    squares is [2 c d^2], three times the rate of the code's time. *)
Theorem relaxation_time_partial P Q d m0 u0 dt th :
  relaxing P -> SOLID P = false -> BINGHAM P = false -> POWER_LAW P = false -> nn (prm P) = 1 -> beta (prm P) = 0 -> 0 < Q 0%nat ->
  0 < d -> det3 (get_A Q) = d * d * d -> theta1inv P Q = Some th ->
  nondimensionalized_time P (d * d * d * rho0 (prm P)) d m0 u0 dt = Some (2 * (c_s2 (prm P) (Q 0%nat) * th) * (d * d) / 3 * dt).
Proof.
  intros [R1 [R2 [R3 R4]]] HS HB HP HN HBe HQ Hd HD ET. rewrite (time_newton P (conj R1 (conj R2 R3)) _ _ _ _ _ HP). f_equal.
  unfold theta1inv in ET. rewrite HS, HB, HP, HN, HD in ET. unfold cpow in ET.
  destruct (Rlt_dec 0 (d * d * d)) as [_|N]; [|exfalso; apply N; apply Rmult_lt_0_compat; [apply Rmult_lt_0_compat|]; exact Hd].
  destruct (Rlt_dec 0 (mu (prm P))); [|lra]. cbn [omap2] in ET. injection ET as <-. replace (1 / 1) with 1 by field. rewrite (Rpower_1 (mu _)) by assumption.
  assert (CS : c_s2 (prm P) (Q 0%nat) = b02 (prm P)) by (unfold c_s2; rewrite HBe, Rpower_O; [ring|apply Rmult_lt_0_compat; [exact HQ|apply Rinv_0_lt_compat, R1]]). rewrite CS.
  assert (P7 : Rpower d 7 = Rpower (d * d * d) (5 / 3) * (d * d)).
  { replace (d * d * d) with (Rpower d 3) by (replace 3 with (1 + 1 + 1) by ring; rewrite !Rpower_plus, Rpower_1 by exact Hd; ring).
    rewrite Rpower_mult. replace (d * d) with (Rpower d 2) by (replace 2 with (1 + 1) by ring; rewrite !Rpower_plus, Rpower_1 by exact Hd; ring).
    rewrite <- Rpower_plus. f_equal. field. }
  rewrite P7. field. lra.
Qed.
Print Assumptions relaxation_time_partial.
(** An elastic solid, whose source term vanishes, is relaxed all the same. *)
Definition relax_params (solid : bool) : par :=
  mkpar (mkparams STIFFENED_GAS 1 0 1 0 1 1 0 1 0 (7 / 5) 0 0 0 0 1 (/ 3) 1 1 1 0 1) solid false false false (fun _ => 0)
        (mkparams STIFFENED_GAS 1 0 1 0 1 1 0 1 0 (7 / 5) 0 0 0 0 1 (/ 3) 1 1 1 0 1) (-1) 0.
Lemma relax_params_ok solid : relaxing (relax_params solid).
Proof. unfold relaxing, relax_params; cbn. repeat split; lra || discriminate. Qed.
Theorem relaxation_time_refuted : exists P, relaxing P /\ forall Q, theta1inv P Q = Some 0 /\
  forall r d m0 u0 dt, 0 < dt -> exists tau, nondimensionalized_time P r d m0 u0 dt = Some tau /\ 0 < tau.
Proof.
  exists (relax_params true). split; [apply relax_params_ok|]. intros Q. split; [reflexivity|]. intros r d m0 u0 dt Hdt. eexists. split.
  - apply time_newton; [|reflexivity]. cbn. lra.
  - cbn. apply Rmult_lt_0_compat; [|exact Hdt]. apply Rmult_lt_0_compat; [apply Rmult_lt_0_compat; [lra|apply exp_pos]|apply Rinv_0_lt_compat; lra].
Qed.
Print Assumptions relaxation_time_refuted.

(** a diagonal distortion and its decomposition *)
Definition three (a b c : R) : vec3 := fun i => match i with O => a | S O => b | _ => c end.
Definition diag_state (a b c : R) : vec := put_A (fun _ => 1) (diag (three a b c)).
Lemma id_orthogonal : orthogonal id3.
Proof. split; intros i j Hi Hj; (destruct i as [|[|[|i]]]; [| | |lia]); (destruct j as [|[|[|j]]]; [| | |lia]); unfold mmul, mtr, sum3, id3, delta; cbn; ring. Qed.
Lemma diag_svd a b c : 0 <= c <= b -> b <= a -> svd_of (get_A (diag_state a b c)) (id3, three a b c, id3).
Proof.
  intros H1 H2. split; [apply id_orthogonal|]. split; [apply id_orthogonal|]. split; [|split; [split; cbn; lra|cbn; lra]].
  intros i j Hi Hj. unfold diag_state. rewrite put_A_get by assumption. destruct i as [|[|[|i]]]; [| | |lia]; (destruct j as [|[|[|j]]]; [| | |lia]); unfold assemble, diag, mmul, mtr, sum3, id3, delta; cbn; ring.
Qed.
Lemma diag_det a b c : det3 (get_A (diag_state a b c)) = a * b * c.
Proof. rewrite (det_meq _ (diag (three a b c))) by apply put_A_get. unfold diag. m3. cbn. ring. Qed.
Lemma diag_scaled a b c : a * b * c = 1 -> scaled (three a b c) (three (a * a) (b * b) (c * c)).
Proof. intros H. exists 1. cbn. split; [rewrite H; ring|]. intros [|[|i]] _; cbn; ring. Qed.
Lemma devGsq_diag s A : meq A (assemble id3 s id3) -> devGsq A = spread (fun i => s i * s i).
Proof.
  intros H. unfold devGsq, dot3, sum3. rewrite !H by lia. unfold assemble, diag, mmul, mtr, sum3, id3, delta, spread, mean, sum3. cbn [Nat.eqb]. field.
Qed.

(** A step of length zero may change the distortion, and raise its shear energy: the stretches squared 2, 3/2, 1/3. *)
Theorem relaxation_zero_refuted : exists P svd q q', relaxing P /\ POWER_LAW P = false /\ svd_of (get_A q) (svd (get_A q)) /\ det3 (get_A q) = 1 /\
  relax_distortion P svd q 0 = Some q' /\ devGsq (get_A q) < devGsq (get_A q').
Proof.
  assert (Q2 := sqrt_sqrt 2 ltac:(lra)). assert (Q3 := sqrt_sqrt (3 / 2) ltac:(lra)). assert (Q1 := sqrt_sqrt (/ 3) ltac:(lra)).
  assert (P3 : sqrt 2 * sqrt (3 / 2) * sqrt (/ 3) = 1) by (rewrite <- !sqrt_mult by lra; replace (2 * (3 / 2) * / 3) with 1 by field; apply sqrt_1).
  assert (S2 := sqrt_pos 2). assert (O1 : sqrt (/ 3) <= sqrt (3 / 2)) by (apply sqrt_le_1; lra). assert (O2 : sqrt (3 / 2) <= sqrt 2) by (apply sqrt_le_1; lra). assert (S1 := sqrt_pos (/ 3)).
  set (a := sqrt 2) in *. set (b := sqrt (3 / 2)) in *. set (c := sqrt (/ 3)) in *.
  set (q := diag_state a b c). set (P := relax_params false). set (svd := fun _ : mat3 => (id3, three a b c, id3)).
  assert (HS : svd_of (get_A q) (id3, three a b c, id3)) by (apply diag_svd; lra).
  assert (HD : det3 (get_A q) = 1) by (unfold q; rewrite diag_det; exact P3). assert (HD' : det3 (get_A q) <> 0) by lra.
  set (x := three (a * a) (b * b) (c * c)). assert (HX : scaled (three a b c) x) by (apply diag_scaled; exact P3).
  assert (MX : mean x = 23 / 18) by (unfold mean, sum3, x; cbn; rewrite Q2, Q3, Q1; field). assert (SX : spread x = 79 / 54) by (unfold spread, sum3; rewrite MX; unfold x; cbn; rewrite Q2, Q3, Q1; field).
  assert (EP : / 10 ^ 12 < / 10) by (apply Rinv_lt_contravar; [apply Rmult_lt_0_compat; [lra|apply pow_lt; lra]|]; replace 10 with (10 ^ 1) at 1 by ring; apply Rlt_pow; [lra|lia]).
  assert (EP0 : 0 < / 10 ^ 12) by (apply Rinv_0_lt_compat, pow_lt; lra).
  assert (RA := relax_A_eq P svd (get_A q) id3 id3 (three a b c) x eq_refl HS HD' HX 0).
  destruct (Rle_dec (/ 10 ^ 12) (spread x)) as [_|N]; [|exfalso; apply N; rewrite SX; lra].
  rewrite (time_newton P) in RA; [|cbn; lra|reflexivity]. cbn [obind] in RA. rewrite Rmult_0_r in RA. destruct (measures_start (mean x) (spread x) (spread_nonneg x)) as [M1 M2]. rewrite M1, M2, MX, SX in RA.
  destruct (stretches_ok (23 / 18) (79 / 54)) as [x1 [x2 [x3 [ST [F1 [X1 [X2 [X3 [XP XS]]]]]]]]]; [lra|lra|lra|]. rewrite ST in RA. cbn [obind] in RA.
  assert (FB : 213 / 100 <= x1 <= 227 / 100).
  { rewrite F1. unfold first_stretch. set (D := -2 * (23 / 18) * (23 / 18) * (23 / 18) + 23 / 18 * (79 / 54) + 2). assert (DV : D = - 221 / 729) by (unfold D; field).
    destruct (Rlt_dec (Rabs D) (/ 10 ^ 12)) as [L|_]; [exfalso; rewrite DV, Rabs_left in L; lra|].
    destruct (Req_EM_T (pos (6 * (79 / 54) * (79 / 54) * (79 / 54) - 81 * D * D)) 0) as [L|_]; [exfalso; apply pos_zero in L; rewrite DV in L; lra|].
    set (z := sqrt (pos _) / _). destruct (atan_third z) as [[C1 C2] C3]. set (cc := cos (atan z / 3)) in *.
    assert (S3 : 866 / 1000 <= sqrt 3 / 2). { assert (1732 / 1000 <= sqrt 3); [|lra]. rewrite <- (sqrt_square (1732 / 1000)) by lra. apply sqrt_le_1; lra. }
    assert (SU : 2962 / 1000 <= sqrt (6 * (79 / 54)) <= 2963 / 1000). { split; [rewrite <- (sqrt_square (2962 / 1000)) by lra; apply sqrt_le_1; lra|rewrite <- (sqrt_square (2963 / 1000)) by lra; apply sqrt_le_1; lra]. }
    set (su := sqrt (6 * (79 / 54))) in *. split; nra. }
  destruct XS as [XS XO]; [nra|].
  destruct (rebuild_ok id3 id3 (cbrt (three a b c 0%nat * three a b c 1%nat * three a b c 2%nat)) x1 x2 x3 X1 X2 X3) as [A' [y [EB [EY [YP [YD [YE M]]]]]]]. rewrite EB in RA.
  exists P, svd, q, (put_A q A'). split; [apply relax_params_ok|]. split; [reflexivity|]. split; [exact HS|]. split; [exact HD|]. split; [unfold relax_distortion; rewrite RA; reflexivity|].
  rewrite (devGsq_diag _ _ (proj1 (proj2 (proj2 HS)))).
  assert (GA : meq (get_A (put_A q A')) (assemble id3 (fun i => cbrt (three a b c 0%nat * three a b c 1%nat * three a b c 2%nat) * sqrt (y i)) id3)) by (intros i j Hi Hj; rewrite put_A_get by assumption; apply M; assumption).
  rewrite (devGsq_diag _ _ GA). assert (CB : cbrt (three a b c 0%nat * three a b c 1%nat * three a b c 2%nat) = 1) by (cbn [three]; rewrite P3; replace 1 with (1 * 1 * 1) at 1 by ring; apply cbrt_of_cube). rewrite CB.
  assert (L1 : spread (fun i => three a b c i * three a b c i) = 79 / 54) by (unfold spread, mean, sum3; cbn; rewrite Q2, Q3, Q1; field). rewrite L1.
  assert (SQ : forall i, (i < 3)%nat -> 1 * sqrt (y i) * (1 * sqrt (y i)) = y i) by (intros i Hi; replace (1 * sqrt (y i) * (1 * sqrt (y i))) with (sqrt (y i) * sqrt (y i)) by ring; apply sqrt_sqrt, Rlt_le, YP; exact Hi).
  unfold spread, mean, sum3. rewrite !SQ by lia. destruct (sort3_cases x1 x2 x3) as [p [q1 [r1 [E0 [E1 [E2 [_ [S0' [_ [S2' _]]]]]]]]]]. rewrite <- EY in E0, E1, E2. rewrite E0, E1, E2.
  assert (X23 : x2 * x3 = 1 / x1) by (apply Rmult_eq_reg_l with x1; [|lra]; rewrite <- Rmult_assoc, XP; field; lra).
  assert (I1 : 1 / x1 <= 100 / 213) by (unfold Rdiv; rewrite Rmult_1_l; replace (100 * / 213) with (/ (213 / 100)) by field; apply Rinv_le_contravar; lra).
  assert (E2' : x1 * x2 + x2 * x3 + x3 * x1 < 25 / 6) by (rewrite X23; replace (x1 * x2 + 1 / x1 + x3 * x1) with (x1 * (x2 + x3) + 1 / x1) by ring; replace (x2 + x3) with (3 * (23 / 18) - x1) by lra; nra).
  replace ((p - (p + q1 + r1) / 3) * (p - (p + q1 + r1) / 3) + (q1 - (p + q1 + r1) / 3) * (q1 - (p + q1 + r1) / 3) + (r1 - (p + q1 + r1) / 3) * (r1 - (p + q1 + r1) / 3))
    with (2 / 3 * ((p + q1 + r1) * (p + q1 + r1)) - 2 * (p * q1 + q1 * r1 + r1 * p)) by field. rewrite S0', S2', XS. lra.
Qed.
Print Assumptions relaxation_zero_refuted.

(** A strongly sheared state can be relaxed to something that is not finite: stretches 4, 1/2, 1/2 and a moderate time. *)
Theorem relaxation_overshoot_refuted : exists P svd q dt, relaxing P /\ POWER_LAW P = false /\ svd_of (get_A q) (svd (get_A q)) /\ det3 (get_A q) = 1 /\ 0 < dt /\
  relax_distortion P svd q dt = None.
Proof.
  set (q := diag_state 4 (/ 2) (/ 2)). set (P := relax_params false). set (svd := fun _ : mat3 => (id3, three 4 (/ 2) (/ 2), id3)).
  assert (HS : svd_of (get_A q) (id3, three 4 (/ 2) (/ 2), id3)) by (apply diag_svd; lra).
  assert (HD : det3 (get_A q) = 1) by (unfold q; rewrite diag_det; field). assert (HD' : det3 (get_A q) <> 0) by lra.
  set (x := three (4 * 4) (/ 2 * / 2) (/ 2 * / 2)). assert (HX : scaled (three 4 (/ 2) (/ 2)) x) by (apply diag_scaled; field).
  assert (MX : mean x = 11 / 2) by (unfold mean, sum3, x; cbn; field). assert (SX : spread x = 1323 / 8) by (unfold spread, sum3; rewrite MX; unfold x; cbn; field).
  assert (EP : / 10 ^ 12 < / 10) by (apply Rinv_lt_contravar; [apply Rmult_lt_0_compat; [lra|apply pow_lt; lra]|]; replace 10 with (10 ^ 1) at 1 by ring; apply Rlt_pow; [lra|lia]).
  assert (L2 : 0 < ln 2) by (rewrite <- ln_1; apply ln_increasing; lra).
  exists P, svd, q, (ln 2 / 3). split; [apply relax_params_ok|]. split; [reflexivity|]. split; [exact HS|]. split; [exact HD|]. split; [lra|].
  unfold relax_distortion. rewrite (relax_A_eq P svd (get_A q) id3 id3 _ x eq_refl HS HD' HX). destruct (Rle_dec (/ 10 ^ 12) (spread x)) as [_|N]; [|exfalso; apply N; rewrite SX; lra].
  rewrite (time_newton P); [|cbn; lra|reflexivity]. cbn [obind].
  assert (TV : rho0 (prm P) * b02 (prm P) * Rpower (cbrt (three 4 (/ 2) (/ 2) 0%nat * three 4 (/ 2) (/ 2) 1%nat * three 4 (/ 2) (/ 2) 2%nat)) 7 / (3 * mu (prm P)) * (ln 2 / 3) = ln 2 / 3).
  { cbn. replace (4 * / 2 * / 2) with (1 * 1 * 1) by field. rewrite cbrt_of_cube. unfold Rpower. rewrite ln_1, Rmult_0_r, exp_0. field. }
  rewrite TV. assert (E3 : exp (- ln 2) = / 2) by (rewrite exp_Ropp, exp_ln by lra; reflexivity).
  assert (E6 : exp (- 6 * (ln 2 / 3)) = / 4) by (replace (- 6 * (ln 2 / 3)) with (- ln 2 + - ln 2) by field; rewrite exp_plus, E3; field).
  assert (E9 : exp (- 9 * (ln 2 / 3)) = / 8) by (replace (- 9 * (ln 2 / 3)) with (- ln 2 + - ln 2 + - ln 2) by field; rewrite !exp_plus, E3; field).
  unfold measure_m, measure_u, measure_a, measure_b. rewrite E6, E9, MX, SX.
  rewrite (pos_neg (6 * _ * _ - _)) by lra.
  set (m := 1 + _ - _). assert (MV : m = - 233 / 64) by (unfold m; field).
  assert (FN : first_stretch m 0 < 0).
  { unfold first_stretch. set (D := -2 * m * m * m + m * 0 + 2). assert (DV : 0 < D < 99) by (unfold D; rewrite MV; lra).
    destruct (Rlt_dec (Rabs D) (/ 10 ^ 12)) as [L|_]; [exfalso; rewrite Rabs_pos_eq in L by lra; unfold D in L; rewrite MV in L; lra|].
    destruct (Req_EM_T (pos (6 * 0 * 0 * 0 - 81 * D * D)) 0) as [_|N]; [|exfalso; apply N, pos_neg; nra].
    pose proof (cbrt_cube (54 * D)) as TC. assert (TP : 0 < cbrt (54 * D)) by (apply cbrt_pos; lra). set (T := cbrt (54 * D)) in *.
    assert (T < 18) by (destruct (Rlt_dec T 18); [assumption|]; exfalso; assert (18 * 18 * 18 <= T * T * T) by (assert (18 * 18 <= T * T) by nra; nra); lra).
    unfold Rdiv at 2. rewrite Rmult_0_l, MV. lra. }
  unfold stretches. set (f := first_stretch m 0) in *. rewrite odiv_some by lra. cbn [obind].
  assert (PZ : pos (f * (3 * m - f) * (3 * m - f) - 4) = 0). { apply pos_neg. assert (0 <= (3 * m - f) * (3 * m - f)) by apply Rle_0_sqr. nra. }
  rewrite PZ. unfold Rdiv at 1. rewrite Rmult_0_l, osqrt_some by lra. cbn [obind]. destruct (odiv 1 _) as [x3|]; [|reflexivity]. cbn [obind].
  unfold rebuild. destruct (sort3_cases f (/ 2 * (sqrt 0 + (3 * m - f))) x3) as [p [q1 [r1 [_ [_ [E2 [_ [_ [_ [_ [_ [_ L]]]]]]]]]]]]. rewrite E2.
  destruct (osqrt _); [|reflexivity]. cbn [obind]. destruct (osqrt _); [|reflexivity]. cbn [obind]. unfold osqrt. destruct (Rlt_dec r1 0); [reflexivity|lra].
Qed.
Print Assumptions relaxation_overshoot_refuted.

(** the hypotheses of the theorems above are met: stretches squared 2, 1, 1/2 *)
Example relaxation_case : exists P svd q U s W x, relaxing P /\ POWER_LAW P = false /\ svd (get_A q) = (U, s, W) /\ svd_of (get_A q) (U, s, W) /\ det3 (get_A q) <> 0 /\ scaled s x /\
  moderate x /\ / 10 ^ 12 <= skew x /\ / 10 ^ 12 <= spread x /\
  exists q1 q0, relax_distortion P svd q 1 = Some q1 /\ relax_distortion P svd q 0 = Some q0 /\ det3 (get_A q1) = 1 /\ forall k, q0 k = q k.
Proof.
  assert (Q2 := sqrt_sqrt 2 ltac:(lra)). assert (Q1 := sqrt_sqrt (/ 2) ltac:(lra)).
  assert (P3 : sqrt 2 * 1 * sqrt (/ 2) = 1) by (rewrite Rmult_1_r, <- sqrt_mult by lra; replace (2 * / 2) with 1 by field; apply sqrt_1).
  assert (O1 : sqrt (/ 2) <= 1) by (rewrite <- sqrt_1; apply sqrt_le_1; lra). assert (O2 : 1 <= sqrt 2) by (rewrite <- sqrt_1 at 1; apply sqrt_le_1; lra). assert (S1 := sqrt_pos (/ 2)).
  set (a := sqrt 2) in *. set (c := sqrt (/ 2)) in *.
  set (q := diag_state a 1 c). set (P := relax_params false). set (svd := fun _ : mat3 => (id3, three a 1 c, id3)).
  assert (HS : svd_of (get_A q) (id3, three a 1 c, id3)) by (apply diag_svd; lra).
  assert (HD : det3 (get_A q) = 1) by (unfold q; rewrite diag_det; exact P3). assert (HD' : det3 (get_A q) <> 0) by lra.
  set (x := three (a * a) (1 * 1) (c * c)). assert (HX : scaled (three a 1 c) x) by (apply diag_scaled; exact P3).
  assert (MX : mean x = 7 / 6) by (unfold mean, sum3, x; cbn; rewrite Q2, Q1; field). assert (SX : spread x = 7 / 6) by (unfold spread, sum3; rewrite MX; unfold x; cbn; rewrite Q2, Q1; field).
  assert (KX : skew x = 5 / 27) by (unfold skew; rewrite MX; unfold x; cbn; rewrite Q2, Q1; field).
  assert (EP : / 10 ^ 12 < / 10) by (apply Rinv_lt_contravar; [apply Rmult_lt_0_compat; [lra|apply pow_lt; lra]|]; replace 10 with (10 ^ 1) at 1 by ring; apply Rlt_pow; [lra|lia]).
  assert (HM : moderate x) by (unfold moderate; rewrite MX, SX; lra).
  exists P, svd, q, id3, (three a 1 c), id3, x. split; [apply relax_params_ok|]. split; [reflexivity|]. split; [reflexivity|]. split; [exact HS|]. split; [exact HD'|]. split; [exact HX|].
  split; [exact HM|]. split; [rewrite KX; lra|]. split; [rewrite SX; lra|].
  destruct (relaxation_keeps_partial P svd q 1 _ _ _ x (relax_params_ok false) eq_refl HS HD' HX HM ltac:(lra) ltac:(discriminate)) as [q1 [s1 [E1 [D1 _]]]].
  destruct (relaxation_keeps_partial P svd q 0 _ _ _ x (relax_params_ok false) eq_refl HS HD' HX HM ltac:(lra) ltac:(discriminate)) as [q0 [s0 [E0 _]]].
  destruct (relaxation_zero_partial P svd q _ _ _ x eq_refl HS HD' HX) as [q0' [E0' H0]]; [right; right; left; rewrite KX; lra|right; rewrite E0; discriminate|].
  exists q1, q0'. split; [exact E1|]. split; [exact E0'|]. split; [rewrite D1; exact HD|exact H0].
Qed.
