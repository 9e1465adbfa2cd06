(** C62-C64: the Newton-Krylov solver. *)
From Coq Require Import Reals Lra Psatz Lia FunctionalExtensionality.
From Verif Require Import Base Sum KrylovModel KrylovProof KrylovProof2.
Import List ListNotations.
Open Scope R_scope.

(** ** C63 *)
(** For every function, point and direction the line search returns after at most 9 evaluations; it moves along the
    direction by less than 3 times its length, never backwards, and the residual it reports is that at the new point.
    The step is the full one or reduces the squared residual by the factor [1 - s/10000]. *)
Theorem line_search_step : forall n F x dx, exists s k x',
  line_search n F 7 x (F x) dx = Ok (x', F x', s, k) /\ x' = vadd x (vscal s dx) /\ (k <= 9)%nat /\ 0 <= s < 3 /\ (0 < vdot n (F x) (F x) -> 0 < s) /\
  (s = 1 \/ vdot n (F x') (F x') <= (1 - s / 10000) * vdot n (F x) (F x)).
Proof.
  intros n F x dx. destruct (line_search_ok n F x dx 7 ltac:(lia)) as [s [k [E [D [S0 K]]]]]. exists s, k, (vadd x (vscal s dx)). split; [exact E|]. split; [reflexivity|]. split; [exact K|].
  unfold value in *. rewrite at_zero in *. unfold at_step in *. split; [destruct D as [->|D]; lra|]. split; [exact S0|]. destruct D as [D|[_ D]]; [left; exact D|right]. unfold c1 in D. lra.
Qed.
Print Assumptions line_search_step.
(** the function |x| with a jump: the search falls back to the full step although the residual grows *)
Theorem line_search_may_grow : exists n F x dx x' k, line_search n F 7 x (F x) dx = Ok (x', F x', 1, k) /\ vdot n (F x) (F x) < vdot n (F x') (F x').
Proof.
  set (F := fun (y : dv) (_ : nat) => if Req_EM_T (y 0%nat) 0 then 1 else 2). set (x := fun _ : nat => 0). set (dx := fun _ : nat => 1).
  destruct (line_search_step 1 F x dx) as [s [k [x' [E [EX [_ [R [SP D]]]]]]]]. assert (FX : vdot 1 (F x) (F x) = 1) by (unfold vdot, F, x; cbn; destruct (Req_EM_T 0 0); [ring|congruence]).
  rewrite FX in *. specialize (SP ltac:(lra)). assert (X0 : x' 0%nat = s) by (rewrite EX; unfold vadd, vscal, x, dx; ring).
  assert (FX' : vdot 1 (F x') (F x') = 4) by (unfold vdot, F; cbn; rewrite X0; destruct (Req_EM_T s 0); [lra|ring]). rewrite FX' in *.
  destruct D as [->|D]; [|exfalso; lra]. exists 1%nat, F, x, dx, x', k. split; [exact E|]. rewrite FX, FX'. lra.
Qed.
Print Assumptions line_search_may_grow.
(** a step that is not the full one: one dimension, the identity, three times the way to the root *)
Example line_search_case : exists k, line_search 1 (fun y => y) 7 (fun _ => 1) (fun _ => 1) (fun _ => -3) = Ok (vadd (fun _ => 1) (vscal (/ 8) (fun _ => -3)), vadd (fun _ => 1) (vscal (/ 8) (fun _ => -3)), / 8, k).
Proof.
  exists 2%nat. unfold line_search, scalar_search_armijo, phi. cbn [tmp_s]. destruct (Req_EM_T 1 0); [lra|]. cbn [tmp_s tmp_phi tmp_Fx evals]. set (p1 := vdot 1 (vadd (fun _ => 1) (vscal 1 (fun _ => -3))) _). assert (P1 : p1 = 4) by (unfold p1, vdot, vadd, vscal; cbn; ring).
  set (p0 := vdot 1 (fun _ => 1) (fun _ => 1)). assert (P0 : p0 = 1) by (unfold p0, vdot; cbn; ring). rewrite P1, P0. destruct (Rle_dec 4 _) as [L|_]; [unfold c1 in L; lra|]. destruct (Req_EM_T (2 * 4) 0); [lra|].
  replace (1 / (2 * 4)) with (/ 8) by field. destruct (Req_EM_T (/ 8) 1); [lra|]. set (p2 := vdot 1 (vadd (fun _ => 1) (vscal (/ 8) (fun _ => -3))) _). assert (P2 : p2 = 25 / 64) by (unfold p2, vdot, vadd, vscal; cbn; field). rewrite P2.
  destruct (Rle_dec (25 / 64) _) as [_|N]; [|exfalso; apply N; unfold c1; lra]. cbn [bind tmp_s tmp_Fx evals]. destruct (Req_EM_T (/ 8) (/ 8)); [reflexivity|congruence].
Qed.

(** ** C62 *)
Section NewtonProps.
Variables (n : nat) (F : dv -> dv) (qr : nat -> nat -> dmat -> dmat * dmat) (lsolve : nat -> dmat -> dv -> dv) (junk : dv).
(** what the solver accepts as a solution, [x0] being the starting point *)
Definition accepted (T : tols) (x0 x : dv) : Prop :=
  maxnorm n (F x) = 0 \/
  (maxnorm n (F x) <= f_tol T /\ maxnorm n (F x) / f_rtol T <= maxnorm n (F x0) /\ INF <= x_tol T /\ INF / x_rtol T <= maxnorm n x).
Definition f0_ok (x0 : dv) (st : newton) : Prop := (nF0 st = maxnorm n (F x0) /\ nF0 st <> 0) \/ (nF0 st = 0 /\ nx st = x0).
Lemma check_accepted T x0 st : (0 < n)%nat -> nF st = F (nx st) -> f0_ok x0 st ->
  (fst (check n T (nF0 st) (nF st) (nx st) (vscal INF (fun _ => 1))) = true <-> accepted T x0 (nx st)).
Proof.
  intros Hn HF H0. rewrite check_true by exact Hn. unfold accepted. rewrite HF.
  assert (E : (if Req_EM_T (nF0 st) 0 then maxnorm n (F (nx st)) else nF0 st) = maxnorm n (F x0)); [|rewrite E; tauto].
  destruct H0 as [[A B]|[A B]]; destruct (Req_EM_T (nF0 st) 0); congruence.
Qed.
Lemma loop_accepts T x0 : (0 < n)%nat -> forall m st, nF st = F (nx st) -> f0_ok x0 st -> exists st' k, newton_loop n F qr lsolve junk m T st = Ok (st', k) /\
  nF st' = F (nx st') /\ (k <= m)%nat /\ (k = m \/ accepted T x0 (nx st')) /\ ((forall x, ~ accepted T x0 x) -> k = m).
Proof.
  intros Hn. induction m as [|m IH]; intros st HF H0; cbn [newton_loop]; [exists st, 0%nat; repeat split; try assumption; left; reflexivity|].
  assert (CA := check_accepted T x0 st Hn HF H0).
  destruct (newton_step_ok n F qr lsolve junk T st HF) as [r [E P]]. rewrite E. cbn [bind]. destruct r as [st1|st1].
  - destruct P as [C [X1 F1]]. apply CA in C. exists st1, 0%nat. split; [reflexivity|]. split; [exact F1|]. split; [lia|]. split; [right; rewrite X1; exact C|]. intros N. elim (N _ C).
  - destruct P as [C [F1 [d [s [X1 [_ [_ F0]]]]]]]. destruct (IH st1 F1) as [st' [k [E' [A1 [A2 [A3 A4]]]]]].
    + left. rewrite F0. unfold check. cbn [snd]. destruct (Req_EM_T (nF0 st) 0) as [Z|Z].
      * destruct H0 as [[A B]|[A B]]; [congruence|]. rewrite HF, B. split; [reflexivity|]. intros Z'. rewrite (proj2 CA) in C; [discriminate|]. left. rewrite B. exact Z'.
      * destruct H0 as [[A B]|[A B]]; [split; assumption|congruence].
    + rewrite E'. cbn [bind]. exists st', (S k). split; [reflexivity|]. split; [exact A1|]. split; [lia|]. split; [destruct A3 as [->|A3]; [left; reflexivity|right; exact A3]|]. intros N. rewrite (A4 N). reflexivity.
Qed.
Lemma solve_accepts T x : (0 < n)%nat -> exists st k, nonlin_solve n F qr lsolve junk T x = Ok (st, k) /\
  nF st = F (nx st) /\ (k <= 3 * (n + 1))%nat /\ (k = (3 * (n + 1))%nat \/ accepted T x (nx st)) /\ ((forall y, ~ accepted T x y) -> k = (3 * (n + 1))%nat).
Proof. intros Hn. apply loop_accepts; [exact Hn|reflexivity|right; split; reflexivity]. Qed.
End NewtonProps.

(** The solver always returns (whatever the QR and the linear solves do), within 3(n+1) iterations, and the residual
    it keeps is the one at the returned point; it stops early only if the residual there is zero, or is below the
    tolerances while the step tolerances are at least the largest double.
    Missing from the full claim: the tolerances on the step; see [newton_refuted]. *)
Theorem newton_returns_partial : forall n F qr lsolve junk T x, (0 < n)%nat -> exists st k,
  nonlin_solve n F qr lsolve junk T x = Ok (st, k) /\ nF st = F (nx st) /\ (k <= 3 * (n + 1))%nat /\
  ((k < 3 * (n + 1))%nat -> maxnorm n (F (nx st)) = 0 \/
    (maxnorm n (F (nx st)) <= f_tol T /\ maxnorm n (F (nx st)) / f_rtol T <= maxnorm n (F x) /\ INF <= x_tol T /\ INF / x_rtol T <= maxnorm n (nx st))).
Proof.
  intros n F qr lsolve junk T x Hn. destruct (solve_accepts n F qr lsolve junk T x Hn) as [st [k [E [A [B [C _]]]]]]. exists st, k. split; [exact E|]. split; [exact A|]. split; [exact B|].
  intros L. destruct C as [C|C]; [lia|exact C].
Qed.
Print Assumptions newton_returns_partial.
Example newton_returns_case : exists st k, nonlin_solve 2 (fun x => vsub x (fun _ => 3)) (fun _ _ A => (A, A)) (fun _ _ g => g) vzero default_tols vzero = Ok (st, k) /\ (k <= 9)%nat.
Proof. destruct (newton_returns_partial 2 (fun x => vsub x (fun _ => 3)) (fun _ _ A => (A, A)) (fun _ _ g => g) vzero default_tols vzero ltac:(lia)) as [st [k [E [_ [K _]]]]]. exists st, k. split; [exact E|lia]. Qed.
(** from a root it returns at once, without moving *)
Theorem newton_at_root : forall n F qr lsolve junk T x, maxnorm n (F x) = 0 -> exists st, nonlin_solve n F qr lsolve junk T x = Ok (st, 0%nat) /\ nx st = x.
Proof.
  intros n F qr lsolve junk T x H. unfold nonlin_solve. replace (3 * (n + 1))%nat with (S (3 * n + 2)) by lia. cbn [newton_loop]. unfold newton_step, check. cbn [nx nF nF0]. destruct (Req_EM_T (maxnorm n (F x)) 0); [|congruence]. cbn [bind]. eexists. split; reflexivity.
Qed.
Print Assumptions newton_at_root.
Example newton_at_root_case : maxnorm 2 ((fun x => vsub x (fun _ => 3)) (fun _ => 3)) = 0.
Proof. apply maxabs_zero. intros i Hi. unfold vsub. ring. Qed.
(** A step tolerance below the largest double keeps the solver from ever stopping before its last iteration, unless
    the residual is exactly zero. *)
Theorem newton_step_tolerance : forall n F qr lsolve junk T x, (0 < n)%nat -> x_tol T < INF -> (forall y, maxnorm n (F y) <> 0) -> exists st,
  nonlin_solve n F qr lsolve junk T x = Ok (st, (3 * (n + 1))%nat).
Proof.
  intros n F qr lsolve junk T x Hn HT HF. destruct (solve_accepts n F qr lsolve junk T x Hn) as [st [k [E [_ [_ [_ C]]]]]]. exists st. rewrite E, C; [reflexivity|].
  intros y [Z|[_ [_ [L _]]]]; [apply (HF _ Z)|lra].
Qed.
Print Assumptions newton_step_tolerance.
(** The claim that the iteration stops once the residual and the step are within the tolerances is false: here both
    are within them from the start. *)
Theorem newton_refuted : exists n F qr lsolve junk T x st,
  nonlin_solve n F qr lsolve junk T x = Ok (st, (3 * (n + 1))%nat) /\ 0 < x_tol T /\ 0 < x_rtol T /\
  (forall y, maxnorm n (F y) <= f_tol T) /\ (forall y, maxnorm n (F y) / f_rtol T <= maxnorm n (F x)).
Proof.
  destruct (newton_step_tolerance 1 (fun _ _ => / 2) (fun _ _ A => (A, A)) (fun _ _ g => g) vzero (mktols 1 1 1 1) vzero ltac:(lia)) as [st E].
  - cbn. unfold INF. assert (1 < 2 ^ 1023) by (apply Rlt_pow_R1; [lra|lia]). assert (/ 2 ^ 52 < 1); [|apply Rlt_trans with (1 * 2 ^ 1023); [lra|apply Rmult_lt_compat_r; lra]]. rewrite <- Rinv_1. apply Rinv_lt_contravar; [rewrite Rmult_1_l; apply pow_lt; lra|]. apply Rlt_pow_R1; [lra|lia].
  - intros y Z. apply (proj1 (maxabs_zero _ _)) with (i := 0%nat) in Z; [lra|lia].
  - assert (M : maxnorm 1 (fun _ => / 2) = / 2) by (unfold maxnorm; cbn [maxabs]; rewrite Rabs_pos_eq by lra; apply Rmax_right; lra).
    do 7 eexists. exists st. split; [exact E|]. cbn [x_tol x_rtol f_tol f_rtol]. split; [lra|]. split; [lra|]. split; intros y; cbv beta; rewrite !M; lra.
Qed.
Print Assumptions newton_refuted.

(** ** C64 *)
(** Given an inner iteration, LGMRES always returns; it makes at most [maxiter] corrections, keeps at most
    [outer_k] recycled vectors, and stops early only if the residual is within the tolerance (relative to the right
    hand side, or absolute). *)
Theorem lgmres_returns_partial : forall n matvec psolve qr lsolve junk b x ov tol maxiter inner_m outer_k, (1 <= inner_m)%nat ->
  exists x' ov' k, lgmres n matvec psolve qr lsolve junk b x ov tol maxiter inner_m outer_k = Ok (x', ov', k) /\ (k <= maxiter)%nat /\
    ((1 <= k)%nat -> (List.length ov' <= outer_k)%nat) /\ (k = 0%nat -> x' = x) /\
    ((k < maxiter)%nat -> vnorm n (vsub (matvec x') b) <= tol \/ (vnorm n b <> 0 /\ vnorm n (vsub (matvec x') b) <= tol * vnorm n b)).
Proof.
  intros n matvec psolve qr lsolve junk b x ov tol maxiter inner_m outer_k H. unfold lgmres.
  destruct (outer_ok n matvec psolve qr lsolve junk maxiter b x ov tol (if Req_EM_T (vnorm n b) 0 then 1 else vnorm n b) inner_m outer_k (or_introl H)) as [x' [ov' [k [E [K [S0 [Z L]]]]]]].
  exists x', ov', k. split; [exact E|]. split; [exact K|]. split; [exact L|]. split; [intros K0; apply (Z K0)|]. intros K1. destruct S0 as [S0|S0]; [lia|]. unfold small in S0.
  destruct (Req_EM_T (vnorm n b) 0) as [B|B]; destruct S0 as [S0|S0]; try (left; exact S0); [left; lra|right; split; assumption].
Qed.
Print Assumptions lgmres_returns_partial.
(** Without inner iterations and recycled vectors it reads an element of an empty vector. *)
Theorem lgmres_refuted : exists n matvec psolve qr lsolve junk b x tol maxiter outer_k w, lgmres n matvec psolve qr lsolve junk b x [] tol maxiter 0 outer_k = UB w.
Proof.
  exists 1%nat, (fun v => v), (fun v => v), (fun _ _ A => (A, A)), (fun _ _ g => g), vzero, (fun _ => 1), vzero, 0, 1%nat, 1%nat, "ws[0] of an empty vector"%string.
  unfold lgmres. cbn [outer]. assert (E : vnorm 1 (vsub vzero (fun _ => 1)) = 1). { unfold vnorm, vdot, vsub, vzero. cbn. replace (0 + (0 - 1) * (0 - 1)) with 1 by ring. apply sqrt_1. }
  rewrite E. destruct (Rle_dec 1 _) as [L|_]; [exfalso; lra|]. destruct (Rle_dec 1 0) as [L|_]; [exfalso; lra|]. reflexivity.
Qed.
Print Assumptions lgmres_refuted.
