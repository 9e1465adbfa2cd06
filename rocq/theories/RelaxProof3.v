(** Lemmas about relaxation/analytic.cpp: the step of length zero and the new distortion. *)
From Coq Require Import Reals ZArith Lra Psatz Lia List.
From Verif Require Import Base Options Mat3 PhysModel PhysInst PhysSpec UtilsModel UtilsProof RelaxModel RelaxSpec RelaxProof RelaxProof2.
Open Scope R_scope.

(** ** the first stretch is a root of the characteristic polynomial *)
Lemma cos_triple a : cos (3 * a) = 4 * (cos a * cos a * cos a) - 3 * cos a.
Proof.
  replace (3 * a) with (2 * a + a) by ring. rewrite cos_plus, cos_2a_cos, sin_2a.
  pose proof (sin2_cos2 a) as S. unfold Rsqr in S.
  replace (2 * sin a * cos a * sin a) with (2 * (sin a * sin a) * cos a) by ring. replace (sin a * sin a) with (1 - cos a * cos a) by lra. ring.
Qed.
Lemma cube_sqrt u : 0 <= u -> sqrt (6 * u) * sqrt (6 * u) = 6 * u.
Proof. intros H. apply sqrt_sqrt. lra. Qed.
Section Root.
Variables t0 t1 t2 m : R.
Hypothesis S0 : t0 + t1 + t2 = 0.
Hypothesis Ord : t2 <= t1 <= t0.
Hypothesis Prod : (t0 + m) * (t1 + m) * (t2 + m) = 1.
Notation u := (t0 * t0 + t1 * t1 + t2 * t2).
Notation D := (2 * (t0 * t1 * t2)).
Lemma skew_D : -2 * m * m * m + m * u + 2 = D.
Proof. replace t2 with (- t0 - t1) in * by lra. nra. Qed.
Lemma disc : 6 * u * u * u - 81 * D * D = 12 * ((t0 - t1) * (t1 - t2) * (t2 - t0)) * ((t0 - t1) * (t1 - t2) * (t2 - t0)).
Proof. replace t2 with (- t0 - t1) by lra. ring. Qed.
Lemma trig_root : 0 < D -> 0 < 6 * u * u * u - 81 * D * D ->
  sqrt (6 * u) / 3 * cos (atan (sqrt (6 * u * u * u - 81 * D * D) / (9 * D)) / 3) = t0.
Proof.
  intros HD HA. set (uu := u) in *. set (d := D) in *. set (z := sqrt (6 * uu * uu * uu - 81 * d * d) / (9 * d)).
  assert (UP : 0 < uu) by (destruct (Rlt_dec 0 uu); [assumption|exfalso; nra]).
  set (s := sqrt (6 * uu)). assert (SS : s * s = 6 * uu) by (apply sqrt_sqrt; lra). assert (SP : 0 < s) by (apply sqrt_lt_R0; lra).
  assert (ZZ : 1 + Rsqr z = 6 * uu * uu * uu / (81 * d * d)).
  { unfold z, Rsqr. set (q := sqrt _). assert (QQ : q * q = 6 * uu * uu * uu - 81 * d * d) by (apply sqrt_sqrt; lra).
    replace (q / (9 * d) * (q / (9 * d))) with ((q * q) / (81 * d * d)) by (field; lra). rewrite QQ. field. lra. }
  assert (CA : cos (atan z) = 9 * d / (uu * s)).
  { rewrite cos_atan, ZZ. replace (6 * uu * uu * uu / (81 * d * d)) with (Rsqr (uu * s / (9 * d))).
    - rewrite sqrt_Rsqr; [field; split; lra|]. apply Rle_mult_inv_pos; [nra|lra].
    - unfold Rsqr. replace (uu * s / (9 * d) * (uu * s / (9 * d))) with (uu * uu * (s * s) / (81 * d * d)) by (field; lra). rewrite SS. f_equal. ring. }
  pose proof (cos_triple (atan z / 3)) as TR. replace (3 * (atan z / 3)) with (atan z) in TR by field. rewrite CA in TR.
  destruct (atan_third z) as [[C1 _] _]. set (c := cos (atan z / 3)) in *. set (t := s / 3 * c).
  assert (TP : 0 < t) by (unfold t; apply Rmult_lt_0_compat; lra).
  assert (TE : t * t * t - uu / 2 * t = d / 2).
  { assert (S3 : s * s * s = 6 * uu * s) by (rewrite SS; ring).
    assert (X : t * t * t - uu / 2 * t = 6 * uu * s / 108 * (4 * (c * c * c) - 3 * c)) by (unfold t; replace (s / 3 * c * (s / 3 * c) * (s / 3 * c)) with (s * s * s / 27 * (c * c * c)) by field; rewrite S3; field).
    rewrite X, <- TR. field. split; lra. }
  assert (RT : (t - t0) * (t - t1) * (t - t2) = 0).
  { unfold uu, d in TE. replace t2 with (- t0 - t1) in * by lra. nra. }
  assert (T0 : 0 <= t0) by lra.
  assert (N12 : t1 < 0 /\ t2 < 0).
  { unfold d in HD. assert (t2 <= 0) by lra. split; [|destruct (Req_dec t2 0) as [E|]; [rewrite E in HD; nra|lra]].
    destruct (Rlt_dec t1 0); [assumption|]. exfalso. assert (0 <= t0 * t1) by nra. nra. }
  apply Rmult_integral in RT. destruct RT as [RT|RT]; [apply Rmult_integral in RT; destruct RT|]; lra.
Qed.
Lemma double_root : D <> 0 -> 6 * u * u * u - 81 * D * D = 0 ->
  let T := cbrt (54 * D) in (0 < D -> T / 6 + u / T = t0) /\ (D < 0 -> T / 6 + u / T = t2).
Proof.
  intros HD. rewrite disc. intros HA. assert (Z : (t0 - t1) * (t1 - t2) * (t2 - t0) = 0) by (apply Rmult_integral in HA; destruct HA; lra).
  assert (N : t0 <> 0 /\ t1 <> 0 /\ t2 <> 0) by (repeat split; intros E; rewrite E in HD; apply HD; ring).
  apply Rmult_integral in Z. destruct Z as [Z|Z]; [apply Rmult_integral in Z; destruct Z as [Z|Z]|].
  - replace t1 with t0 in * by lra. replace t2 with (- (2 * t0)) in * by lra. assert (0 < t0) by lra.
    replace (54 * (2 * (t0 * t0 * - (2 * t0)))) with ((- 6 * t0) * (- 6 * t0) * (- 6 * t0)) by ring. rewrite cbrt_of_cube. cbv zeta. split; intros; [nra|field; lra].
  - replace t2 with t1 in * by lra. replace t0 with (- (2 * t1)) in * by lra. assert (t1 < 0) by lra.
    replace (54 * (2 * (- (2 * t1) * t1 * t1))) with ((- 6 * t1) * (- 6 * t1) * (- 6 * t1)) by ring. rewrite cbrt_of_cube. cbv zeta. split; intros; [field; lra|exfalso; assert (0 < t1 * t1) by nra; nra].
  - exfalso. destruct N as [N _]. apply N. lra.
Qed.
Lemma first_root : D = 0 \/ / 10 ^ 12 <= D \/ (D <= - / 10 ^ 12 /\ 6 * u * u * u - 81 * D * D = 0) ->
  first_stretch m u = t0 + m \/ first_stretch m u = t2 + m.
Proof.
  intros H. unfold first_stretch. rewrite skew_D. cbv zeta. assert (EP : 0 < / 10 ^ 12) by (apply Rinv_0_lt_compat, pow_lt; lra).
  destruct (Rlt_dec (Rabs D) (/ 10 ^ 12)) as [L|L].
  - destruct H as [H|[H|[H _]]]; [|rewrite Rabs_pos_eq in L; lra|rewrite Rabs_left in L; lra]. left. f_equal.
    assert (T1 : t1 = 0). { assert (Z : t0 * t1 * t2 = 0) by lra. apply Rmult_integral in Z. destruct Z as [Z|Z]; [apply Rmult_integral in Z; destruct Z as [Z|Z]|]; lra. }
    rewrite T1 in *. replace t2 with (- t0) by lra. rewrite cos_PI6. replace (6 * (t0 * t0 + 0 * 0 + - t0 * - t0)) with (3 * ((2 * t0) * (2 * t0))) by ring.
    rewrite sqrt_mult by nra. rewrite sqrt_square by lra. pose proof (sqrt_sqrt 3 ltac:(lra)) as Q. replace (sqrt 3 * (2 * t0) / 3 * (sqrt 3 / 2)) with (sqrt 3 * sqrt 3 * t0 / 3) by field. rewrite Q. field.
  - assert (DN : D <> 0) by (intros E; rewrite E, Rabs_R0 in L; lra).
    assert (AN : 0 <= 6 * u * u * u - 81 * D * D).
    { rewrite disc. set (k := (t0 - t1) * (t1 - t2) * (t2 - t0)). replace (12 * k * k) with (12 * (k * k)) by ring. assert (0 <= k * k) by apply Rle_0_sqr. lra. }
    rewrite pos_id by exact AN. destruct (Req_EM_T (6 * u * u * u - 81 * D * D) 0) as [Z|Z].
    + destruct (double_root DN Z) as [H1 H2]. destruct (Rlt_dec 0 D) as [P|P]; [left; f_equal; apply H1; exact P|right; f_equal; apply H2; lra].
    + destruct H as [H|[H|[_ H]]]; [contradiction| |contradiction]. left. f_equal. apply trig_root; lra.
Qed.
End Root.

Lemma sorted_unique a b c x y z : c <= b <= a -> z <= y <= x -> a + b + c = x + y + z -> a * b * c = x * y * z ->
  a * b + b * c + c * a = x * y + y * z + z * x -> a = x /\ b = y /\ c = z.
Proof.
  intros O1 O2 E1 E3 E2.
  assert (R1 : forall w, (w - a) * (w - b) * (w - c) = (w - x) * (w - y) * (w - z)).
  { intros w. replace ((w - a) * (w - b) * (w - c)) with (w * w * w - (a + b + c) * (w * w) + (a * b + b * c + c * a) * w - a * b * c) by ring.
    rewrite E1, E2, E3. ring. }
  assert (Z3 : forall p q r : R, p * q * r = 0 -> p = 0 \/ q = 0 \/ r = 0) by (intros p q r Z; apply Rmult_integral in Z; destruct Z as [Z|Z]; [apply Rmult_integral in Z|]; tauto).
  assert (A := Z3 _ _ _ (eq_trans (eq_sym (R1 a)) (ltac:(ring) : (a - a) * (a - b) * (a - c) = 0))).
  assert (X := Z3 _ _ _ (eq_trans (R1 x) (ltac:(ring) : (x - x) * (x - y) * (x - z) = 0))).
  assert (C := Z3 _ _ _ (eq_trans (eq_sym (R1 c)) (ltac:(ring) : (c - a) * (c - b) * (c - c) = 0))).
  assert (Y := Z3 _ _ _ (eq_trans (R1 z) (ltac:(ring) : (z - x) * (z - y) * (z - z) = 0))).
  assert (a = x) by lra. assert (c = z) by lra. lra.
Qed.

(** the stretches of a state are found again if the first one is *)
Lemma stretches_self x0 x1 x2 : 0 < x2 -> x2 <= x1 <= x0 -> x0 * x1 * x2 = 1 ->
  let m := (x0 + x1 + x2) / 3 in let u := (x0 - m) * (x0 - m) + (x1 - m) * (x1 - m) + (x2 - m) * (x2 - m) in
  first_stretch m u = x0 \/ first_stretch m u = x2 ->
  exists a b c, stretches m u = Some (a, b, c) /\ sort3 a b c 0%nat = x0 /\ sort3 a b c 1%nat = x1 /\ sort3 a b c 2%nat = x2.
Proof.
  intros P Ord Prod m u H. set (f := first_stretch m u) in *.
  assert (Q : exists y z, 0 < f /\ 0 < y /\ 0 < z /\ z <= y /\ f * y * z = 1 /\ f + y + z = 3 * m /\ y + z = 3 * m - f /\ f * y + y * z + z * f = x0 * x1 + x1 * x2 + x2 * x0).
  { destruct H as [-> | ->]; [exists x1, x2|exists x0, x1]; repeat split; try lra; unfold m; try lra; try (rewrite <- Prod; ring). }
  destruct Q as [y [z [Q1 [Q2 [Q3 [Q4 [Q5 [Q6 [Q7 Q8]]]]]]]]].
  assert (A : f * (y + z) * (y + z) - 4 = f * ((y - z) * (y - z))) by (replace 4 with (4 * (f * y * z)) by lra; ring).
  assert (ST : stretches m u = Some (f, y, z)).
  { unfold stretches. fold f. rewrite <- Q7, A. rewrite pos_id by (apply Rmult_le_pos; [lra|apply Rle_0_sqr]). rewrite odiv_some by lra. cbn [obind].
    replace (f * ((y - z) * (y - z)) / f) with ((y - z) * (y - z)) by (field; lra). rewrite osqrt_some by apply Rle_0_sqr. cbn [obind]. rewrite sqrt_square by lra.
    replace (/ 2 * (y - z + (y + z))) with y by field. rewrite odiv_some by nra. cbn [obind]. repeat f_equal.
    apply Rmult_eq_reg_r with (f * y); [|nra]. unfold Rdiv. rewrite Rmult_assoc, Rinv_l by nra. lra. }
  exists f, y, z. split; [exact ST|]. destruct (sort3_cases f y z) as [a [b [c [-> [-> [-> [O [E1 [E3 [E2 _]]]]]]]]]].
  apply sorted_unique; try assumption; try lra.
  rewrite E1, Q6. unfold m. field.
Qed.
