(** Lemmas about relaxation/analytic.cpp: the measures of the new distortion, their evolution, the source term. *)
From Coq Require Import Reals ZArith Lra Psatz Lia List.
From Coquelicot Require Import Coquelicot.
From Verif Require Import Base Options Mat3 PhysModel PhysInst PhysSpec PhysProof2 RiemannProof UtilsModel UtilsProof RelaxModel RelaxSpec RelaxProof RelaxProof2 RelaxProof3 RelaxProof4.
Open Scope R_scope.

(** the first stretch solves the cubic if its discriminant allows three real roots and the skew is not negative *)
Lemma first_cubic m u : let D := -2 * m * m * m + m * u + 2 in 0 <= u -> D = 0 \/ / 10 ^ 12 <= D -> 81 * D * D <= 6 * u * u * u ->
  let t := first_stretch m u - m in t * t * t - u / 2 * t = D / 2 /\ 3 * (t * t) <= 2 * u /\ 0 <= t.
Proof.
  intros D Hu HD HA t. assert (EP : 0 < / 10 ^ 12) by (apply Rinv_0_lt_compat, pow_lt; lra).
  set (s := sqrt (6 * u)). assert (SS : s * s = 6 * u) by (apply sqrt_sqrt; lra). assert (SP : 0 <= s) by apply sqrt_pos.
  unfold t, first_stretch. fold D s. destruct (Rlt_dec (Rabs D) (/ 10 ^ 12)) as [L|L].
  - destruct HD as [HD|HD]; [|rewrite Rabs_pos_eq in L; lra]. rewrite cos_PI6, HD. pose proof (sqrt_sqrt 3 ltac:(lra)) as Q. assert (0 < sqrt 3) by (apply sqrt_lt_R0; lra).
    replace (s / 3 * (sqrt 3 / 2) + m - m) with (s * sqrt 3 / 6) by field. set (k := sqrt 3) in *.
    assert (X : s * k / 6 * (s * k / 6) = u / 2) by (replace (s * k / 6 * (s * k / 6)) with ((s * s) * (k * k) / 36) by field; rewrite SS, Q; field).
    rewrite X. split; [field|]. split; [lra|]. apply Rle_mult_inv_pos; [nra|lra].
  - assert (DP : 0 < D) by (destruct HD as [HD|HD]; [rewrite HD, Rabs_R0 in L; lra|lra]).
    rewrite pos_id by lra. destruct (Req_EM_T (6 * u * u * u - 81 * D * D) 0) as [Z|Z].
    + assert (UP : 0 < u) by (destruct (Rlt_dec 0 u); [assumption|exfalso; replace u with 0 in Z by lra; nra]).
      pose proof (cbrt_cube (54 * D)) as TC. assert (TP : 0 < cbrt (54 * D)) by (apply cbrt_pos; lra). set (T := cbrt (54 * D)) in *.
      assert (TT : T * T = 6 * u). { apply cube_inj. replace (T * T * (T * T) * (T * T)) with ((T * T * T) * (T * T * T)) by ring. rewrite TC. lra. }
      replace (T / 6 + u / T + m - m) with (T / 3). 2: { replace u with (T * T / 6) by lra. field. lra. }
      split; [|split; [nra|lra]]. replace (T / 3 * (T / 3) * (T / 3)) with (T * T * T / 27) by field. rewrite TC. replace (u / 2 * (T / 3)) with ((6 * u) * T / 36) by field. rewrite <- TT. lra.
    + assert (AP : 0 < 6 * u * u * u - 81 * D * D) by lra. assert (UP : 0 < u) by (destruct (Rlt_dec 0 u); [assumption|exfalso; replace u with 0 in AP by lra; nra]).
      assert (SP' : 0 < s) by (apply sqrt_lt_R0; lra). set (z := sqrt (6 * u * u * u - 81 * D * D) / (9 * D)).
      assert (ZZ : 1 + Rsqr z = 6 * u * u * u / (81 * D * D)).
      { unfold z, Rsqr. set (q := sqrt _). assert (QQ : q * q = 6 * u * u * u - 81 * D * D) by (apply sqrt_sqrt; lra).
        replace (q / (9 * D) * (q / (9 * D))) with ((q * q) / (81 * D * D)) by (field; lra). rewrite QQ. field. lra. }
      assert (CA : cos (atan z) = 9 * D / (u * s)).
      { rewrite cos_atan, ZZ. replace (6 * u * u * u / (81 * D * D)) with (Rsqr (u * s / (9 * D))).
        - rewrite sqrt_Rsqr; [field; split; lra|]. apply Rle_mult_inv_pos; [nra|lra].
        - unfold Rsqr. replace (u * s / (9 * D) * (u * s / (9 * D))) with (u * u * (s * s) / (81 * D * D)) by (field; lra). rewrite SS. f_equal. ring. }
      pose proof (cos_triple (atan z / 3)) as TR. replace (3 * (atan z / 3)) with (atan z) in TR by field. rewrite CA in TR.
      destruct (atan_third z) as [[C1 C2] _]. set (c := cos (atan z / 3)) in *. replace (s / 3 * c + m - m) with (s / 3 * c) by ring. split; [|split].
      * assert (S3 : s * s * s = 6 * u * s) by (rewrite SS; ring).
        assert (X : s / 3 * c * (s / 3 * c) * (s / 3 * c) - u / 2 * (s / 3 * c) = 6 * u * s / 108 * (4 * (c * c * c) - 3 * c)) by (replace (s / 3 * c * (s / 3 * c) * (s / 3 * c)) with (s * s * s / 27 * (c * c * c)) by field; rewrite S3; field).
        rewrite X, <- TR. field. split; lra.
      * replace (s / 3 * c * (s / 3 * c)) with (s * s / 9 * (c * c)) by field. rewrite SS. assert (c * c <= 1) by nra. assert (0 <= c * c) by nra. nra.
      * apply Rmult_le_pos; lra.
Qed.
(** then the stretches have mean [m] and spread [u] *)
Lemma stretches_measures m u : let D := -2 * m * m * m + m * u + 2 in 0 < m -> 0 <= u -> D = 0 \/ / 10 ^ 12 <= D -> 81 * D * D <= 6 * u * u * u -> u < 6 * (m * m) ->
  exists a b c, stretches m u = Some (a, b, c) /\ 0 < a /\ 0 < b /\ 0 < c /\ a * b * c = 1 /\ a + b + c = 3 * m /\
    (a - m) * (a - m) + (b - m) * (b - m) + (c - m) * (c - m) = u.
Proof.
  intros D Hm Hu HD HA H6. destruct (first_cubic m u Hu HD HA) as [TE [TU TP]]. set (f := first_stretch m u) in *. set (t := f - m) in *.
  assert (FP : 0 < f) by (unfold t in TP; lra). assert (T2 : t < 2 * m) by nra.
  (* the discriminant of the remaining quadratic *)
  assert (Q : f * (3 * m - f) * (3 * m - f) - 4 = f * (2 * u - 3 * (t * t))).
  { replace f with (t + m) by (unfold t; ring). unfold D in TE. nra. }
  unfold stretches. fold f. rewrite Q. rewrite pos_id by (apply Rmult_le_pos; lra). rewrite odiv_some by lra. cbn [obind].
  replace (f * (2 * u - 3 * (t * t)) / f) with (2 * u - 3 * (t * t)) by (field; lra). rewrite osqrt_some by lra. cbn [obind]. set (w := sqrt _).
  assert (WW : w * w = 2 * u - 3 * (t * t)) by (apply sqrt_sqrt; lra). assert (WP : 0 <= w) by apply sqrt_pos.
  assert (G : 0 < 3 * m - f) by (unfold t in T2; lra). assert (B : 0 < / 2 * (w + (3 * m - f))) by lra.
  rewrite odiv_some by nra. cbn [obind].
  assert (C : 1 / (f * (/ 2 * (w + (3 * m - f)))) = / 2 * (3 * m - f - w)).
  { apply Rmult_eq_reg_r with (f * (/ 2 * (w + (3 * m - f)))); [|nra]. unfold Rdiv at 1. rewrite Rmult_assoc, Rinv_l, Rmult_1_r by nra.
    replace (/ 2 * (3 * m - f - w) * (f * (/ 2 * (w + (3 * m - f))))) with ((f * (3 * m - f) * (3 * m - f) - f * (w * w)) / 4) by field. rewrite WW. lra. }
  eexists _, _, _. split; [reflexivity|]. split; [exact FP|]. split; [exact B|]. split; [apply Rmult_lt_0_compat; [lra|apply Rinv_0_lt_compat; nra]|].
  split; [field; split; lra|]. rewrite C. split; [field|]. replace f with (t + m) by (unfold t; ring).
  replace ((t + m - m) * (t + m - m) + (/ 2 * (w + (3 * m - (t + m))) - m) * (/ 2 * (w + (3 * m - (t + m))) - m) + (/ 2 * (3 * m - (t + m) - w) - m) * (/ 2 * (3 * m - (t + m) - w) - m))
    with (3 / 2 * (t * t) + w * w / 2) by field. rewrite WW. field.
Qed.

(** ** the evolution of the measures *)
Lemma measures_derive m0 u0 tau : let m := measure_m m0 u0 in let v := fun t => 6 * measure_a m0 u0 * exp (- 6 * t) - 9 * measure_b m0 u0 * exp (- 9 * t) in
  is_derive m tau (- v tau) /\ is_derive v tau (54 * (m tau - 1) - 15 * v tau).
Proof.
  cbv zeta. unfold measure_m. split; auto_derive; try exact I; ring.
Qed.

(** ** the source term *)
Lemma AdevG_assemble U W s : orthogonal U -> orthogonal W ->
  meq (AdevG (assemble U s W)) (assemble U (fun i => s i * (s i * s i - sum3 (fun k => s k * s k) / 3)) W).
Proof.
  intros [OU _] [OW OW'].
  set (D := diag s). set (S2 := diag (fun i => s i * s i)). set (tr := sum3 (fun k => s k * s k)).
  assert (ext : forall X Y Z, meq X Y -> meq (mmul X Z) (mmul Y Z)) by (intros X Y Z H i j Hi Hj; unfold mmul, sum3; rewrite !H by lia; reflexivity).
  assert (exr : forall X Y Z, meq X Y -> meq (mmul Z X) (mmul Z Y)) by (intros X Y Z H i j Hi Hj; unfold mmul, sum3; rewrite !H by lia; reflexivity).
  assert (asc : forall X Y Z, meq (mmul (mmul X Y) Z) (mmul X (mmul Y Z))) by (intros X Y Z i j _ _; unfold mmul, sum3; ring).
  assert (tra : forall X Y Z, meq X Y -> meq Y Z -> meq X Z) by (intros X Y Z H1 H2 i j Hi Hj; rewrite (H1 i j Hi Hj); apply H2; assumption).
  assert (sym : forall X Y, meq X Y -> meq Y X) by (intros X Y H i j Hi Hj; symmetry; apply H; assumption).
  assert (idl : forall X, meq (mmul id3 X) X) by (intros X i j Hi Hj; destruct i as [|[|[|i]]]; [| | |lia]; unfold mmul, sum3, id3, delta; cbn; ring).
  assert (trm : forall X Y, meq (mtr (mmul X Y)) (mmul (mtr Y) (mtr X))) by (intros X Y i j _ _; unfold mtr, mmul, sum3; ring).
  (* the metric tensor *)
  assert (G : meq (gram (assemble U s W)) (mmul (mmul W S2) (mtr W))).
  { unfold gram, assemble. fold D. eapply tra; [apply ext; apply trm|]. eapply tra; [apply ext; apply exr; apply trm|].
    (* (W'^T^T ...) *)
    assert (WT : meq (mtr (mtr W)) W) by (intros i j _ _; reflexivity).
    eapply tra; [apply ext; apply ext; exact WT|].
    (* W (D^T U^T) (U D W^T) *)
    eapply tra; [apply asc|]. eapply tra; [|apply sym, asc]. apply exr. eapply tra; [apply asc|].
    eapply tra; [apply exr; eapply tra; [apply exr; apply asc|]; eapply tra; [apply sym, asc|]; eapply tra; [apply ext; exact OU|apply idl]|].
    eapply tra; [apply sym, asc|]. apply ext. intros i j Hi Hj. unfold D, S2, diag, mmul, mtr, sum3.
    destruct i as [|[|[|i]]]; [| | |lia]; (destruct j as [|[|[|j]]]; [| | |lia]); cbn; ring. }
  assert (TG : trace3 (gram (assemble U s W)) = tr).
  { unfold trace3, sum3. rewrite !G by lia. unfold mmul, mtr, sum3, S2, diag. cbn [Nat.eqb]. unfold tr, sum3.
    assert (O0 := OW 0%nat 0%nat ltac:(lia) ltac:(lia)). assert (O1 := OW 1%nat 1%nat ltac:(lia) ltac:(lia)). assert (O2 := OW 2%nat 2%nat ltac:(lia) ltac:(lia)).
    unfold mmul, mtr, sum3, id3, delta in O0, O1, O2. cbn [Nat.eqb] in O0, O1, O2.
    replace (s 0%nat * s 0%nat + s 1%nat * s 1%nat + s 2%nat * s 2%nat) with (s 0%nat * s 0%nat * 1 + s 1%nat * s 1%nat * 1 + s 2%nat * s 2%nat * 1) by ring.
    rewrite <- O0 at 1. rewrite <- O1 at 1. rewrite <- O2. ring. }
  eapply tra; [apply AdevG_prod|].
  assert (DG : meq (dev3 (gram (assemble U s W))) (mmul (mmul W (diag (fun i => s i * s i - tr / 3))) (mtr W))).
  { intros i j Hi Hj. unfold dev3. rewrite TG, (G i j Hi Hj). rewrite <- (OW' i j Hi Hj : _ = delta i j). unfold mmul, mtr, sum3, S2, diag. cbn [Nat.eqb]. ring. }
  eapply tra; [apply exr; exact DG|]. unfold assemble. fold D.
  eapply tra; [apply asc|]. eapply tra; [|apply sym, asc]. eapply tra; [apply asc|]. apply exr.
  eapply tra; [apply exr; eapply tra; [apply exr; apply asc|]; eapply tra; [apply sym, asc|]; eapply tra; [apply ext; exact OW|apply idl]|].
  eapply tra; [apply sym, asc|]. apply ext. intros i j Hi Hj. unfold D, diag, mmul, sum3. fold tr.
  destruct i as [|[|[|i]]]; [| | |lia]; (destruct j as [|[|[|j]]]; [| | |lia]); cbn; unfold tr, sum3; ring.
Qed.
