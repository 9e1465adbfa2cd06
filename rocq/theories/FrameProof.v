(** Singular value decompositions of the same matrix, and what the relaxation of the distortion makes of them. *)
From Coq Require Import Reals ZArith Lra Psatz Lia List Setoid Morphisms.
From Verif Require Import Base Options Mat3 PhysModel UtilsModel PhysSpec PhysProof2 RelaxModel RelaxSpec.
Open Scope R_scope.

Global Instance meq_equiv : Equivalence meq.
Proof. split; [exact meq_refl|exact meq_sym|exact meq_trans]. Qed.
Global Instance mmul_proper : Proper (meq ==> meq ==> meq) mmul.
Proof. intros A A' HA B B' HB. apply mmul_meq; assumption. Qed.
Global Instance mtr_proper : Proper (meq ==> meq) mtr.
Proof. intros A A' HA. apply mtr_meq, HA. Qed.
Lemma mtr_mtr A : meq (mtr (mtr A)) A. Proof. intros i j _ _. reflexivity. Qed.
Lemma diag_diag s t : meq (mmul (diag s) (diag t)) (diag (fun i => s i * t i)).
Proof. intros i j Hi Hj. idx3 i; idx3 j; unfold diag; m3; ring. Qed.
Lemma diag_tr s : meq (mtr (diag s)) (diag s).
Proof. intros i j Hi Hj. unfold mtr, diag. rewrite Nat.eqb_sym. destruct (Nat.eqb_spec i j); subst; reflexivity. Qed.
Lemma diag_right A s i j : (j < 3)%nat -> mmul A (diag s) i j = A i j * s j.
Proof. intros Hj. idx3 j; unfold diag; m3; ring. Qed.
Lemma diag_left A s i j : (i < 3)%nat -> mmul (diag s) A i j = s i * A i j.
Proof. intros Hi. idx3 i; unfold diag; m3; ring. Qed.
Lemma orthogonal_tr X : orthogonal X -> orthogonal (mtr X).
Proof. intros [H1 H2]. split; [rewrite mtr_mtr; exact H2|rewrite mtr_mtr; exact H1]. Qed.
Lemma orthogonal_mmul X Y : orthogonal X -> orthogonal Y -> orthogonal (mmul X Y).
Proof.
  intros [X1 X2] [Y1 Y2]. split; rewrite mtr_mmul.
  - rewrite mmul_assoc. rewrite <- (mmul_assoc (mtr X) X Y), X1, mmul_id_l. exact Y1.
  - rewrite mmul_assoc. rewrite <- (mmul_assoc Y (mtr Y)), Y2, mmul_id_l. exact X2.
Qed.
Lemma orthogonal_column X j : orthogonal X -> (j < 3)%nat -> exists i, (i < 3)%nat /\ X i j <> 0.
Proof.
  intros [H _] Hj. specialize (H j j Hj Hj). unfold id3, delta in H. rewrite Nat.eqb_refl in H. unfold mmul, mtr, sum3 in H.
  destruct (Req_dec (X 0%nat j) 0) as [E0|]; [|exists 0%nat; split; [lia|assumption]]. destruct (Req_dec (X 1%nat j) 0) as [E1|]; [|exists 1%nat; split; [lia|assumption]].
  exists 2%nat. split; [lia|]. intros E2. rewrite E0, E1, E2 in H. lra.
Qed.
Lemma gram_assemble U s W : orthogonal U -> meq (gram (assemble U s W)) (mmul (mmul W (diag (fun i => s i * s i))) (mtr W)).
Proof.
  intros [HU _]. unfold gram, assemble. rewrite !mtr_mmul, mtr_mtr, diag_tr. rewrite <- diag_diag. rewrite !mmul_assoc. apply mmul_meq; [reflexivity|]. apply mmul_meq; [reflexivity|].
  rewrite <- (mmul_assoc (mtr U) U), HU, mmul_id_l. reflexivity.
Qed.

Lemma sq_inj a b : 0 <= a -> 0 <= b -> a * a = b * b -> a = b.
Proof. intros Ha Hb E. nra. Qed.
Lemma trace_squares U s W : orthogonal U -> orthogonal W -> trace3 (gram (assemble U s W)) = s 0%nat * s 0%nat + s 1%nat * s 1%nat + s 2%nat * s 2%nat.
Proof.
  intros HU HW. pose proof (gram_assemble U s W HU) as G. unfold trace3, sum3. rewrite !G by lia. destruct HW as [HW _].
  assert (N : forall j, (j < 3)%nat -> W 0%nat j * W 0%nat j + W 1%nat j * W 1%nat j + W 2%nat j * W 2%nat j = 1).
  { intros j Hj. specialize (HW j j Hj Hj). unfold id3, delta in HW. rewrite Nat.eqb_refl in HW. exact HW. }
  pose proof (N 0%nat ltac:(lia)) as N0. pose proof (N 1%nat ltac:(lia)) as N1. pose proof (N 2%nat ltac:(lia)) as N2.
  unfold diag. m3. 
  transitivity (s 0%nat * s 0%nat * (W 0%nat 0%nat * W 0%nat 0%nat + W 1%nat 0%nat * W 1%nat 0%nat + W 2%nat 0%nat * W 2%nat 0%nat) + s 1%nat * s 1%nat * (W 0%nat 1%nat * W 0%nat 1%nat + W 1%nat 1%nat * W 1%nat 1%nat + W 2%nat 1%nat * W 2%nat 1%nat)
    + s 2%nat * s 2%nat * (W 0%nat 2%nat * W 0%nat 2%nat + W 1%nat 2%nat * W 1%nat 2%nat + W 2%nat 2%nat * W 2%nat 2%nat)); [ring|]. rewrite N0, N1, N2. ring.
Qed.

Section Two.
Variables (A A' U U' W W' : mat3) (s s' : vec3).
Hypothesis HA : meq A A'.
Hypothesis H1 : svd_of A (U, s, W).
Hypothesis H2 : svd_of A' (U', s', W').
Definition overlap : mat3 := mmul (mtr W') W.
Lemma overlap_orthogonal : orthogonal overlap.
Proof using H1 H2. destruct H1 as (_ & HW & _), H2 as (_ & HW' & _). apply orthogonal_mmul; [apply orthogonal_tr|]; assumption. Qed.
Lemma overlap_links i j : (i < 3)%nat -> (j < 3)%nat -> overlap i j * (s j * s j) = s' i * s' i * overlap i j.
Proof using HA H1 H2.
  destruct H1 as (HU & [HW _] & E & _), H2 as (HU' & [HW' _] & E' & _). intros Hi Hj.
  assert (X : meq (mmul overlap (diag (fun i => s i * s i))) (mmul (diag (fun i => s' i * s' i)) overlap)).
  { assert (G : meq (mmul (mmul W (diag (fun i => s i * s i))) (mtr W)) (mmul (mmul W' (diag (fun i => s' i * s' i))) (mtr W'))).
    { rewrite <- (gram_assemble U s W HU), <- (gram_assemble U' s' W' HU'). unfold gram. rewrite <- E, <- E', HA. reflexivity. }
    unfold overlap. transitivity (mmul (mtr W') (mmul (mmul (mmul W (diag (fun i => s i * s i))) (mtr W)) W)).
    - rewrite !mmul_assoc, HW, mmul_id_r. reflexivity.
    - rewrite G. rewrite !mmul_assoc. rewrite <- (mmul_assoc (mtr W') W'), HW', mmul_id_l. reflexivity. }
  specialize (X i j Hi Hj). rewrite diag_right, diag_left in X by assumption. exact X.
Qed.
Lemma s_range i : (i < 3)%nat -> 0 <= s i /\ 0 <= s' i.
Proof using H1 H2. destruct H1 as (_ & _ & _ & [D1 D2] & D3), H2 as (_ & _ & _ & [D1' D2'] & D3'). intros Hi. idx3 i; lra. Qed.
Lemma value_there j : (j < 3)%nat -> exists i, (i < 3)%nat /\ s' i = s j.
Proof using HA H1 H2.
  intros Hj. destruct (orthogonal_column overlap j overlap_orthogonal Hj) as (i & Hi & N). exists i. split; [exact Hi|]. apply sq_inj; [apply s_range, Hi|apply s_range, Hj|].
  pose proof (overlap_links i j Hi Hj) as L. apply Rmult_eq_reg_l with (overlap i j); [|exact N]. lra.
Qed.
Lemma value_back j : (j < 3)%nat -> exists i, (i < 3)%nat /\ s i = s' j.
Proof using HA H1 H2.
  intros Hj. destruct (orthogonal_column (mtr overlap) j (orthogonal_tr _ overlap_orthogonal) Hj) as (i & Hi & N). unfold mtr in N. exists i. split; [exact Hi|]. apply sq_inj; [apply s_range, Hi|apply s_range, Hj|].
  pose proof (overlap_links j i Hj Hi) as L. apply Rmult_eq_reg_l with (overlap j i); [|exact N]. lra.
Qed.
(** the singular values are determined by the matrix *)
Lemma values_unique i : (i < 3)%nat -> s' i = s i.
Proof using HA H1 H2.
  pose proof (fun j Hj => s_range j Hj) as P. destruct (value_there 0 ltac:(lia)) as (a & Ha & Ea). destruct (value_there 2 ltac:(lia)) as (c & Hc & Ec). destruct (value_back 0 ltac:(lia)) as (a' & Ha' & Ea'). destruct (value_back 2 ltac:(lia)) as (c' & Hc' & Ec').
  pose proof H1 as (HU & HW & E & [D1 D2] & D3). pose proof H2 as (HU' & HW' & E' & [D1' D2'] & D3').
  assert (E0 : s' 0%nat = s 0%nat) by (apply Rle_antisym; [idx3 a'; lra|idx3 a; lra]).
  assert (E2 : s' 2%nat = s 2%nat) by (apply Rle_antisym; [idx3 c; lra|idx3 c'; lra]).
  assert (Q : s 0%nat * s 0%nat + s 1%nat * s 1%nat + s 2%nat * s 2%nat = s' 0%nat * s' 0%nat + s' 1%nat * s' 1%nat + s' 2%nat * s' 2%nat).
  { rewrite <- (trace_squares U s W HU HW), <- (trace_squares U' s' W' HU' HW'). unfold trace3, sum3, gram, mmul, mtr, sum3. rewrite <- !E, <- !E', !HA by lia. reflexivity. }
  rewrite E0, E2 in Q. assert (E1 : s' 1%nat = s 1%nat) by (apply sq_inj; [apply (P 1%nat); lia|apply (P 1%nat); lia|lra]).
  intros Hi. idx3 i; assumption.
Qed.

(** the directions of different singular values are determined up to a common sign *)
Hypothesis HD : s 2%nat < s 1%nat < s 0%nat.
Lemma overlap_diagonal i j : (i < 3)%nat -> (j < 3)%nat -> i <> j -> overlap i j = 0.
Proof using HA H1 H2 HD.
  intros Hi Hj N. pose proof (overlap_links i j Hi Hj) as L. rewrite values_unique in L by exact Hi. pose proof (s_range i Hi) as [P1 _]. pose proof (s_range j Hj) as [P2 _].
  assert (Ne : s j * s j - s i * s i <> 0).
  { intros Z. assert (X : s i = s j) by (apply sq_inj; lra). idx3 i; idx3 j; lra || lia. }
  apply Rmult_eq_reg_r with (s j * s j - s i * s i); [|exact Ne]. lra.
Qed.
Definition sgn (i : nat) : R := overlap i i.
Lemma sgn_sq i : (i < 3)%nat -> sgn i * sgn i = 1.
Proof using HA H1 H2 HD.
  intros Hi. destruct overlap_orthogonal as [X _]. specialize (X i i Hi Hi). unfold id3, delta in X. rewrite Nat.eqb_refl in X. unfold mmul, mtr, sum3 in X. unfold sgn.
  pose proof overlap_diagonal as Z. idx3 i; rewrite ?(Z 0%nat 1%nat), ?(Z 0%nat 2%nat), ?(Z 1%nat 0%nat), ?(Z 1%nat 2%nat), ?(Z 2%nat 0%nat), ?(Z 2%nat 1%nat) in X by lia; lra.
Qed.
Lemma right_directions k i : (k < 3)%nat -> (i < 3)%nat -> W k i = sgn i * W' k i.
Proof using HA H1 H2 HD.
  intros Hk Hi. destruct H2 as (_ & [_ HW'] & _). assert (X : meq W (mmul W' overlap)) by (unfold overlap; rewrite <- mmul_assoc, HW', mmul_id_l; reflexivity).
  rewrite (X k i Hk Hi). unfold mmul, sum3, sgn. pose proof overlap_diagonal as Z. idx3 i; rewrite ?(Z 0%nat 1%nat), ?(Z 0%nat 2%nat), ?(Z 1%nat 0%nat), ?(Z 1%nat 2%nat), ?(Z 2%nat 0%nat), ?(Z 2%nat 1%nat) by lia; ring.
Qed.
Lemma left_directions k i : (k < 3)%nat -> (i < 3)%nat -> s i <> 0 -> U k i = sgn i * U' k i.
Proof using HA H1 H2 HD.
  intros Hk Hi N. pose proof H1 as (_ & [HW _] & E & _). pose proof H2 as (_ & [HW' _] & E' & _).
  assert (X : meq (mmul A W) (mmul U (diag s))) by (rewrite E; unfold assemble; rewrite mmul_assoc, HW, mmul_id_r; reflexivity).
  assert (X' : meq (mmul A' W') (mmul U' (diag s'))) by (rewrite E'; unfold assemble; rewrite mmul_assoc, HW', mmul_id_r; reflexivity).
  specialize (X k i Hk Hi). specialize (X' k i Hk Hi). rewrite diag_right in X, X' by exact Hi. rewrite values_unique in X' by exact Hi.
  apply Rmult_eq_reg_r with (s i); [|exact N]. rewrite <- X, Rmult_assoc, <- X'. unfold mmul, sum3. rewrite !(right_directions _ i) by lia. rewrite !HA by lia. ring.
Qed.
Lemma assembled_same f : (forall i, (i < 3)%nat -> s i <> 0) -> meq (assemble U f W) (assemble U' f W').
Proof using HA H1 H2 HD.
  intros N i j Hi Hj. unfold assemble, diag, mmul, mtr, sum3. cbn [Nat.eqb]. rewrite !(left_directions i) by (lia || apply N; lia). rewrite !(right_directions j) by lia.
  pose proof (sgn_sq 0 ltac:(lia)) as Q0. pose proof (sgn_sq 1 ltac:(lia)) as Q1. pose proof (sgn_sq 2 ltac:(lia)) as Q2.
  transitivity (sgn 0 * sgn 0 * (U' i 0%nat * f 0%nat * W' j 0%nat) + sgn 1 * sgn 1 * (U' i 1%nat * f 1%nat * W' j 1%nat) + sgn 2 * sgn 2 * (U' i 2%nat * f 2%nat * W' j 2%nat)); [ring|].
  rewrite Q0, Q1, Q2. ring.
Qed.
End Two.

Lemma svd_turned A U s W X Y : orthogonal X -> orthogonal Y -> svd_of A (U, s, W) -> svd_of (mmul (mmul X A) (mtr Y)) (mmul X U, s, mmul Y W).
Proof.
  intros HX HY (HU & HW & E & D). split; [apply orthogonal_mmul; assumption|]. split; [apply orthogonal_mmul; assumption|]. split; [|exact D].
  rewrite E. unfold assemble. rewrite mtr_mmul. rewrite !mmul_assoc. reflexivity.
Qed.
Lemma assemble_turned U f W X Y : meq (assemble (mmul X U) f (mmul Y W)) (mmul (mmul X (assemble U f W)) (mtr Y)).
Proof. unfold assemble. rewrite mtr_mmul, !mmul_assoc. reflexivity. Qed.

(** analytic.cpp 71-126 without the singular directions: the stretches after the step as a function of those before: [None]: not finite, [Some None]: nothing is done *)
Definition new_stretches (P : par) (s : vec3) (dt : R) : option (option vec3) :=
  let detA := s 0%nat * s 1%nat * s 2%nat in
  if Req_EM_T detA 0 then Some None
  else
    let d1 := cbrt detA in let d2 := d1 * d1 in
    let s0 := s 0%nat * s 0%nat / d2 in let s1 := s 1%nat * s 1%nat / d2 in let s2 := s 2%nat * s 2%nat / d2 in
    let m0 := (s0 + s1 + s2) / 3 in
    let u0 := ((s0 - s1) * (s0 - s1) + (s1 - s2) * (s1 - s2) + (s2 - s0) * (s2 - s0)) / 3 in
    if Rle_dec (/ 10 ^ 12) u0 then
      tau <- nondimensionalized_time P (detA * rho0 (prm P)) d1 m0 u0 dt ;;;
      x <- stretches (measure_m m0 u0 tau) (measure_u m0 u0 tau) ;;;
      let '(x1, x2, x3) := x in let y := sort3 x1 x2 x3 in
      a <- osqrt (y 0%nat) ;;; b <- osqrt (y 1%nat) ;;; c <- osqrt (y 2%nat) ;;;
      Some (Some (fun i => d1 * match i with O => a | S O => b | _ => c end))
    else Some None.
Lemma new_stretches_ext P s s' dt : (forall i, (i < 3)%nat -> s' i = s i) -> new_stretches P s' dt = new_stretches P s dt.
Proof. intros H. unfold new_stretches. rewrite !H by lia. reflexivity. Qed.
Lemma relax_by_stretches P svd A dt U s W : svd A = (U, s, W) ->
  match new_stretches P s dt with
  | None => relax_A P svd A dt = None
  | Some None => relax_A P svd A dt = Some A
  | Some (Some f) => (forall i, (i < 3)%nat -> s i <> 0) /\ exists B, relax_A P svd A dt = Some B /\ meq B (assemble U f W)
  end.
Proof.
  intros E. unfold new_stretches, relax_A. rewrite E. cbv zeta. destruct (Req_EM_T (s 0%nat * s 1%nat * s 2%nat) 0) as [|N]; [reflexivity|]. destruct (Rle_dec _ _); [|reflexivity].
  destruct (nondimensionalized_time _ _ _ _ _ _) as [tau|]; [|reflexivity]. cbn [obind]. destruct (stretches _ _) as [[[x1 x2] x3]|]; [|reflexivity]. cbn [obind]. unfold rebuild.
  destruct (osqrt _); [|reflexivity]. cbn [obind]. destruct (osqrt _); [|reflexivity]. cbn [obind]. destruct (osqrt _); [|reflexivity]. cbn [obind]. split.
  - intros i Hi Z. apply N. idx3 i; rewrite Z; ring.
  - eexists. split; [reflexivity|]. intros i j Hi Hj. unfold assemble, diag, mmul, mtr, sum3. cbn [Nat.eqb]. ring.
Qed.
Lemma isotropic_kept P s dt : s 0%nat = s 1%nat -> s 1%nat = s 2%nat -> new_stretches P s dt = Some None.
Proof.
  intros E1 E2. unfold new_stretches. cbv zeta. destruct (Req_EM_T _ 0); [reflexivity|]. rewrite E1, E2. set (z := s 2%nat * s 2%nat / _). destruct (Rle_dec _ _) as [L|]; [|reflexivity].
  exfalso. replace (((z - z) * (z - z) + (z - z) * (z - z) + (z - z) * (z - z)) / 3) with 0 in L by field. assert (0 < / 10 ^ 12) by (apply Rinv_0_lt_compat, pow_lt; lra). lra.
Qed.
