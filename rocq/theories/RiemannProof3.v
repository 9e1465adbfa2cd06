(** The interface conditions and the star state iteration. *)
From Coq Require Import Reals ZArith Lra Psatz Lia List.
Import ListNotations.
From Verif Require Import Base Options Sum Mat3 PhysModel PhysInst PhysSpec PhysProof2 RiemannModel RiemannProof RiemannProof2 PhysProof5.

Open Scope R_scope.

Lemma rsum_head : forall n m (f c : nat -> R), (n <= m)%nat -> rsum m (fun j => f j * head n c j) = rsum n (fun j => f j * c j).
Proof.
  intros n m f c H. replace m with (n + (m - n))%nat by lia. rewrite rsum_split.
  rewrite (rsum_zero (m - n)).
  - rewrite Rplus_0_r. apply rsum_ext. intros j Hj. unfold head. apply Nat.ltb_lt in Hj. rewrite Hj. reflexivity.
  - intros j _. unfold head. replace (Nat.ltb (n + j) n) with false by (symmetry; apply Nat.ltb_ge; lia). ring.
Qed.
Lemma rsum_lin : forall n (f a b : nat -> R), rsum n (fun j => f j * (a j - b j)) = rsum n (fun j => f j * a j) - rsum n (fun j => f j * b j).
Proof. intros n f a b. induction n as [|n IH]; cbn [rsum]; [ring|]. rewrite IH. ring. Qed.

Section S.
Variable o : options.
Variables (stick relaxation : bool) (STAR_TOL : R).
Variable inverse : nat -> mat -> mat.
Hypothesis VI : VISCOUS o = true.
Notation step := (star_stepper o stick inverse).
Lemma n1_le : (n1 o <= V o)%nat. Proof. unfold n1, V. rewrite VI. destruct (THERMAL o), (MULTI o); cbn; lia. Qed.
Lemma n1_3 : (3 <= n1 o)%nat. Proof. unfold n1. lia. Qed.

Definition cL (x xL : vec) : vec := head (n1 o) (fun i => x i - xL i).
Lemma step_velocity : forall m M x xL Q i, (i < 3)%nat -> Q 0%nat <> 0 -> let Q' := apply_step o m M (cL x xL) Q in Q' 0%nat <> 0 ->
  Q' (2 + i)%nat / Q' 0%nat = Q (2 + i)%nat / Q 0%nat + (rsum (n1 o) (fun j => M (11 + i)%nat j * x j) - rsum (n1 o) (fun j => M (11 + i)%nat j * xL j)).
Proof.
  intros m M x xL Q i Hi HQ Q' H0. unfold Q', apply_step in *. rewrite tc_v by assumption. rewrite tc_0 in H0 |- * by exact VI.
  match goal with |- ?a * ?b / ?a = _ => replace (a * b / a) with b by (field; exact H0) end.
  rewrite tp_v by assumption. unfold matvec, cL. rewrite rsum_head by apply n1_le. rewrite rsum_lin. ring.
Qed.

(** slip, isothermal *)
Lemma slip_ok : THERMAL o = false -> forall RL RR QL QR xL xR, RL 11%nat 0%nat <> RR 11%nat 0%nat ->
  exists x, slip_bcs o inverse RL RR QL QR xL xR = Ok x /\ x 1%nat = 0 /\ x 2%nat = 0 /\
    QL 2%nat / QL 0%nat + rsum 3 (fun j => RL 11%nat j * (x j - xL j)) = QR 2%nat / QR 0%nat + rsum 3 (fun j => RR 11%nat j * (x j - xR j)).
Proof.
  intros T RL RR QL QR xL xR N. unfold slip_bcs, n1. rewrite T. cbn [b2n Nat.add]. eexists. repeat split.
  cbn [rsum]. assert (RL 11%nat 0%nat - RR 11%nat 0%nat <> 0) by lra.
  set (a := QL 2%nat / QL 0%nat). set (b := QR 2%nat / QR 0%nat). field. assumption.
Qed.
Lemma slip_thermal : THERMAL o = true -> forall RL RR QL QR xL xR, is_ub (slip_bcs o inverse RL RR QL QR xL xR).
Proof. intros T RL RR QL QR xL xR. unfold slip_bcs. rewrite T. eexists. reflexivity. Qed.

Lemma slip_step : THERMAL o = false -> stick = false -> forall ML MR QL QR QL' QR', vacuum MR = false ->
  constraints ML QL 1 11%nat 0%nat <> constraints MR QR (-1) 11%nat 0%nat ->
  step QL QR ML MR = Ok (QL', QR') -> QL 0%nat <> 0 -> QR 0%nat <> 0 -> QL' 0%nat <> 0 -> QR' 0%nat <> 0 ->
  QL' 2%nat / QL' 0%nat = QR' 2%nat / QR' 0%nat.
Proof.
  intros T S ML MR QL QR QL' QR' VA N E HL HR H1 H2. unfold star_stepper in E. rewrite VA in E. cbn [negb] in E.
  destruct (slip_ok T (constraints ML QL 1) (constraints MR QR (-1)) QL QR (tractions o ML QL) (tractions o MR QR) N) as (x & Ex & _ & _ & EQ).
  destruct stick; [discriminate|]. rewrite Ex in E. cbn [bind] in E. injection E as <- <-.
  assert (A := step_velocity ML (constraints ML QL 1) x (tractions o ML QL) QL 0%nat ltac:(lia) HL H1).
  assert (B := step_velocity MR (constraints MR QR (-1)) x (tractions o MR QR) QR 0%nat ltac:(lia) HR H2).
  cbn [Nat.add] in A, B. unfold cL in A, B. rewrite A, B. rewrite <- !rsum_lin. unfold n1. rewrite T. exact EQ.
Qed.
(** stick *)
Definition right_inverse (n : nat) (M N : mat) : Prop :=
  forall i j, (i < n)%nat -> (j < n)%nat -> rsum n (fun k => M i k * N k j) = if Nat.eqb i j then 1 else 0.
Lemma stick_ok : forall RL RR QL QR xL xR,
  let D : mat := fun i j => RL (11 + i)%nat j - RR (11 + i)%nat j in right_inverse (n1 o) D (inverse (n1 o) D) ->
  let x := stick_bcs o inverse RL RR QL QR xL xR in forall i, (i < n1 o)%nat ->
    side_velocity QL i + (rsum (n1 o) (fun j => RL (11 + i)%nat j * x j) - rsum (n1 o) (fun j => RL (11 + i)%nat j * xL j))
    = side_velocity QR i + (rsum (n1 o) (fun j => RR (11 + i)%nat j * x j) - rsum (n1 o) (fun j => RR (11 + i)%nat j * xR j)).
Proof.
  intros RL RR QL QR xL xR D I x i Hi.
  set (b := fun k => side_velocity QR k - side_velocity QL k + rsum (n1 o) (fun j => RL (11 + k)%nat j * xL j) - rsum (n1 o) (fun j => RR (11 + k)%nat j * xR j)).
  assert (X : rsum (n1 o) (fun j => D i j * x j) = b i).
  { transitivity (rsum (n1 o) (fun k => rsum (n1 o) (fun j => D i j * inverse (n1 o) D j k) * b k)).
    - transitivity (rsum (n1 o) (fun j => rsum (n1 o) (fun k => D i j * (inverse (n1 o) D j k * b k)))).
      + apply rsum_ext. intros j Hj. unfold x, stick_bcs. rewrite rsum_scal. reflexivity.
      + rewrite rsum_swap. apply rsum_ext. intros k Hk. rewrite Rmult_comm, <- rsum_scal. apply rsum_ext. intros j Hj. ring.
    - rewrite (rsum_single (n1 o) i) by (try exact Hi; intros j Hj Hn; rewrite (I i j) by assumption; rewrite (proj2 (Nat.eqb_neq i j)) by congruence; ring).
      rewrite (I i i), Nat.eqb_refl by assumption. ring. }
  assert (Y : rsum (n1 o) (fun j => D i j * x j) = rsum (n1 o) (fun j => RL (11 + i)%nat j * x j) - rsum (n1 o) (fun j => RR (11 + i)%nat j * x j)).
  { transitivity (rsum (n1 o) (fun j => x j * (RL (11 + i)%nat j - RR (11 + i)%nat j))).
    - apply rsum_ext. intros j Hj. unfold D. ring.
    - rewrite rsum_lin. f_equal; apply rsum_ext; intros; ring. }
  rewrite Y in X. unfold b in X. lra.
Qed.
Lemma stick_step : stick = true -> forall ML MR QL QR QL' QR', vacuum MR = false ->
  let D : mat := fun i j => constraints ML QL 1 (11 + i)%nat j - constraints MR QR (-1) (11 + i)%nat j in
  right_inverse (n1 o) D (inverse (n1 o) D) ->
  step QL QR ML MR = Ok (QL', QR') -> QL 0%nat <> 0 -> QR 0%nat <> 0 -> QL' 0%nat <> 0 -> QR' 0%nat <> 0 ->
  forall i, (i < 3)%nat -> QL' (2 + i)%nat / QL' 0%nat = QR' (2 + i)%nat / QR' 0%nat.
Proof.
  intros S ML MR QL QR QL' QR' VA D I E HL HR H1 H2 i Hi. unfold star_stepper in E. rewrite VA in E. cbn [negb] in E.
  destruct stick; [|discriminate]. cbn [bind] in E. injection E as <- <-.
  assert (X := stick_ok _ _ QL QR (tractions o ML QL) (tractions o MR QR) I i ltac:(assert (Z := n1_3); lia)). cbv zeta in X.
  set (x := stick_bcs o inverse _ _ _ _ _ _) in *.
  assert (A := step_velocity ML (constraints ML QL 1) x (tractions o ML QL) QL i Hi HL H1).
  assert (B := step_velocity MR (constraints MR QR (-1)) x (tractions o MR QR) QR i Hi HR H2).
  unfold cL in A, B. rewrite A, B. unfold side_velocity in X. apply Nat.ltb_lt in Hi. rewrite Hi in X. exact X.
Qed.

(** the iteration *)
Variable nan : vec -> bool.
Notation loop := (star_loop o stick relaxation STAR_TOL inverse nan).
Notation check := (check_star_convergence o stick STAR_TOL).
Lemma loop_count : forall fuel dt ML MR QL QR c Q c', loop fuel dt ML MR QL QR c = Ok (Q, c') -> (c <= c' <= c + fuel)%nat.
Proof.
  induction fuel as [|fuel IH]; intros dt ML MR QL QR c Q c' H; cbn [star_loop] in H; destruct (_ && _)%bool in H;
    try (injection H as <- <-; lia).
  destruct (star_stepper _ _ _ _ _ _ _) as [[a b]| | |] in H; try discriminate. cbn [bind] in H. apply IH in H. lia.
Qed.
(** every outcome of [left_star_state]: the input, or the rotated last iterate, which has no NaN *)
Lemma star_outcome : forall QL QR ML MR dt n Q c, left_star_state o stick relaxation STAR_TOL inverse nan QL QR ML MR dt n = Ok (Q, c) ->
  (c <= 10)%nat /\ (Q = QL \/ exists M Q1, rotation_matrix n = Ok M /\ nan Q1 = false /\ Q = rotate_tensors o Q1 (mtr M)).
Proof.
  intros QL QR ML MR dt n Q c H. unfold left_star_state in H. destruct (rotation_matrix n) as [M| | |]; try discriminate. cbn [bind] in H.
  destruct (star_loop _ _ _ _ _ _ _ _ _ _ _ _ _) as [[Q1 c1]| | |] eqn:L in H; try discriminate. cbn [bind] in H.
  apply loop_count in L. unfold IT_LIM in L. destruct (nan Q1) eqn:N; injection H as <- <-; (split; [lia|]).
  - left. reflexivity.
  - right. exists M, Q1. repeat split. exact N.
Qed.
Lemma star_rest : forall QL QR ML MR dt n M, rotation_matrix n = Ok M -> orthogonal M ->
  nan (rotate_tensors o QL M) = false -> nan (rotate_tensors o QR M) = false ->
  check (rotate_tensors o QL M) (rotate_tensors o QR M) ML MR = true ->
  exists Q, left_star_state o stick relaxation STAR_TOL inverse nan QL QR ML MR dt n = Ok (Q, 0%nat) /\ forall k, Q k = QL k.
Proof.
  intros QL QR ML MR dt n M E OR N1 N2 C. unfold left_star_state. rewrite E. cbn [bind]. unfold IT_LIM. cbn [star_loop].
  rewrite N1, N2, C. rewrite Bool.andb_false_r. cbn [orb negb andb bind]. rewrite N1. eexists. split; [reflexivity|]. intro k. apply rot_back, OR.
Qed.
End S.
