(** Proofs about the bookkeeping of lgmres and the main loop of the Newton solver. *)
From Coq Require Import Reals Lra Psatz Lia FunctionalExtensionality.
From Verif Require Import Base Sum KrylovModel KrylovProof.
Import List ListNotations.
Open Scope R_scope.

Section Gm.
Variable n : nat.
Variables matvec psolve : dv -> dv.
Variable qr : nat -> nat -> dmat -> dmat * dmat.
Variable lsolve : nat -> dmat -> dv -> dv.
Variable junk : dv.
Notation inner := (inner n matvec psolve qr junk).
Notation inner_step := (inner_step n matvec psolve qr junk).
Notation correction := (correction n matvec psolve qr lsolve junk).
Notation outer := (outer n matvec psolve qr lsolve junk).

Lemma step_lengths ov vs0 st j st' hj vn : inner_step ov vs0 st j = (st', hj, vn) ->
  List.length (avs st') = S (List.length (avs st)) /\ List.length (aws st') = S (List.length (aws st)).
Proof.
  unfold KrylovModel.inner_step. destruct (mgs n (avs st) _) as [h v]. destruct (qr _ _ _) as [Qn Rn]. intros H. injection H as <- _ _. cbn. rewrite !app_length. cbn. lia.
Qed.
Lemma inner_j m : forall ov vs0 tol res0 st j st' j', (1 <= j)%nat -> List.length (aws st) = (j - 1)%nat -> inner m ov vs0 tol res0 st j = (st', j') ->
  (j' <= j + m - 1)%nat /\ (j - 1 <= j')%nat /\ (m <> 0%nat -> j <= j')%nat /\ List.length (aws st') = j'.
Proof.
  induction m as [|m IH]; intros ov vs0 tol res0 st j st' j' Hj HL H; cbn [KrylovModel.inner] in H.
  - injection H as <- <-. repeat split; lia || exact HL.
  - destruct (inner_step ov vs0 st j) as [[st1 hj] vn] eqn:E. destruct (step_lengths _ _ _ _ _ _ _ E) as [_ L2].
    destruct (Rle_dec _ _) in H; [injection H as <- <-; repeat split; lia|]. destruct (Rle_dec _ _) in H; [injection H as <- <-; repeat split; lia|].
    destruct (IH ov vs0 tol res0 st1 (S j) st' j' ltac:(lia) ltac:(lia) H) as [A [B [C D]]]. repeat split; try lia.
Qed.
Lemma correction_ok ov tol inner_m r : (1 <= inner_m + List.length ov)%nat -> exists dx, correction ov tol inner_m r = Ok dx.
Proof.
  intros H. unfold KrylovModel.correction. destruct (inner _ _ _ _ _ _ _) as [st j] eqn:E. apply inner_j in E; [|lia|reflexivity]. destruct E as [_ [_ [C _]]].
  destruct (Nat.eqb_spec j 0); [exfalso; specialize (C ltac:(lia)); lia|]. eexists. reflexivity.
Qed.
Lemma correction_ub tol r : correction [] tol 0 r = UB "ws[0] of an empty vector".
Proof. reflexivity. Qed.
Lemma recycle_len k ov : (List.length (recycle k ov) <= k)%nat /\ (List.length (recycle k ov) <= List.length ov)%nat.
Proof. unfold recycle. rewrite skipn_length. lia. Qed.
Definition small (b : dv) (x : dv) (tol bn : R) : Prop := vnorm n (vsub (matvec x) b) <= tol * bn \/ vnorm n (vsub (matvec x) b) <= tol.
Lemma outer_ok m : forall b x ov tol bn inner_m outer_k, (1 <= inner_m)%nat \/ ((1 <= List.length ov)%nat /\ (1 <= outer_k)%nat) ->
  exists x' ov' k, outer m b x ov tol bn inner_m outer_k = Ok (x', ov', k) /\ (k <= m)%nat /\ (k = m \/ small b x' tol bn) /\
    (k = 0%nat -> x' = x /\ ov' = ov) /\ (1 <= k -> List.length ov' <= outer_k)%nat.
Proof.
  induction m as [|m IH]; intros b x ov tol bn inner_m outer_k H; cbn [KrylovModel.outer]; [exists x, ov, 0%nat; repeat split; try lia; left; reflexivity|].
  destruct (Rle_dec _ (tol * bn)) as [A|A]; [exists x, ov, 0%nat; repeat split; try lia; right; left; exact A|]. destruct (Rle_dec _ tol) as [B|B]; [exists x, ov, 0%nat; repeat split; try lia; right; right; exact B|].
  destruct (correction_ok ov tol inner_m (vsub (matvec x) b) ltac:(lia)) as [d ->]. cbn [bind]. set (ov1 := recycle outer_k _).
  assert (L1 : (List.length ov1 <= outer_k)%nat) by apply recycle_len.
  assert (L2 : (1 <= inner_m)%nat \/ ((1 <= List.length ov1)%nat /\ (1 <= outer_k)%nat)).
  { destruct H as [H|[H H']]; [left; exact H|right; split; [|exact H']]. unfold ov1, recycle. rewrite skipn_length. destruct (Rlt_dec 0 (vnorm n d)); [rewrite app_length; cbn [List.length]|]; lia. }
  destruct (IH b (vadd x d) ov1 tol bn inner_m outer_k L2) as [x' [ov' [k [E [HK [HS [H0 HL]]]]]]]. rewrite E. cbn [bind]. exists x', ov', (S k). split; [reflexivity|]. split; [lia|]. split; [destruct HS; [left; lia|right; assumption]|]. split; [lia|].
  intros _. destruct k as [|k]; [destruct (H0 eq_refl) as [_ ->]; exact L1|apply HL; lia].
Qed.
End Gm.

Section Nw.
Variable n : nat.
Variable F : dv -> dv.
Variable qr : nat -> nat -> dmat -> dmat * dmat.
Variable lsolve : nat -> dmat -> dv -> dv.
Variable junk : dv.
Lemma jac_solve_ok x0 f0 ov rhs tol : exists d ov', jac_solve n F qr lsolve junk x0 f0 ov rhs tol = Ok (d, ov').
Proof.
  unfold jac_solve, lgmres. destruct (outer_ok n (jac_matvec n F x0 f0) (fun v => v) qr lsolve junk 1 rhs (vscal 0 rhs) ov tol (if Req_EM_T (vnorm n rhs) 0 then 1 else vnorm n rhs) 30 10 ltac:(left; lia)) as [d [ov' [k [E _]]]].
  rewrite E. cbn [bind]. eauto.
Qed.
Lemma maxabs_nonneg k x : 0 <= maxabs k x.
Proof using. induction k as [|k IH]; cbn [maxabs]; [lra|]. eapply Rle_trans; [exact IH|apply Rmax_l]. Qed.
Lemma maxabs_zero k x : maxabs k x = 0 <-> forall i, (i < k)%nat -> x i = 0.
Proof using.
  induction k as [|k IH]; cbn [maxabs]; [split; [intros _ i Hi; lia|reflexivity]|]. assert (N := maxabs_nonneg k x). assert (P := Rabs_pos (x k)). split.
  - intros H. assert (Rabs (x k) = 0) by (pose proof (Rmax_r (maxabs k x) (Rabs (x k))); lra). assert (maxabs k x = 0) by (pose proof (Rmax_l (maxabs k x) (Rabs (x k))); lra).
    intros i Hi. destruct (Nat.eq_dec i k) as [->|]; [destruct (Req_dec (x k) 0) as [E|E]; [exact E|]; exfalso; apply (Rabs_no_R0 _ E); assumption|]. apply IH; [assumption|lia].
  - intros H. rewrite (proj2 IH) by (intros i Hi; apply H; lia). rewrite (H k) by lia. rewrite Rabs_R0. apply Rmax_left. lra.
Qed.
Lemma maxabs_ub k x i : (i < k)%nat -> Rabs (x i) <= maxabs k x.
Proof using. induction k as [|k IH]; intros Hi; [lia|]. cbn [maxabs]. destruct (Nat.eq_dec i k) as [->|]; [apply Rmax_r|]. eapply Rle_trans; [apply IH; lia|apply Rmax_l]. Qed.
Lemma maxabs_const k c : 0 <= c -> (0 < k)%nat -> maxabs k (vscal c (fun _ => 1)) = c.
Proof using. intros Hc Hk. assert (E : Rabs (vscal c (fun _ => 1) 0%nat) = c) by (unfold vscal; rewrite Rmult_1_r; apply Rabs_pos_eq, Hc).
  induction k as [|k IH]; [lia|]. cbn [maxabs]. unfold vscal at 2. rewrite Rmult_1_r, (Rabs_pos_eq c) by exact Hc. destruct k as [|k]; [cbn; apply Rmax_right; exact Hc|]. rewrite IH by lia. apply Rmax_left. lra. Qed.
Lemma INF_pos : 0 < INF.
Proof using. unfold INF. apply Rmult_lt_0_compat; [|apply pow_lt; lra]. assert (/ 2 ^ 52 < 1); [|lra]. rewrite <- Rinv_1. apply Rinv_lt_contravar; [rewrite Rmult_1_l; apply pow_lt; lra|]. apply Rlt_pow_R1; [lra|lia]. Qed.

(** the test of the loop, which sees the initial step only *)
Lemma check_true T f0 f x : (0 < n)%nat -> fst (check n T f0 f x (vscal INF (fun _ => 1))) = true <->
  (maxnorm n f = 0 \/ (maxnorm n f <= f_tol T /\ maxnorm n f / f_rtol T <= (if Req_EM_T f0 0 then maxnorm n f else f0) /\ INF <= x_tol T /\ INF / x_rtol T <= maxnorm n x)).
Proof using.
  clear F qr lsolve junk.
  intros Hn. assert (EI : maxnorm n (vscal INF (fun _ => 1)) = INF) by (apply maxabs_const; [left; apply INF_pos|exact Hn]).
  unfold check. rewrite EI. cbn [fst]. destruct (Req_EM_T (maxnorm n f) 0) as [Z|Z]; [tauto|].
  destruct (Rle_dec (maxnorm n f) (f_tol T)); [|split; [discriminate|tauto]]. destruct (Rle_dec (maxnorm n f / f_rtol T) _); [|split; [discriminate|tauto]].
  destruct (Rle_dec INF (x_tol T)); [|split; [discriminate|tauto]]. destruct (Rle_dec (INF / x_rtol T) _); [tauto|split; [discriminate|tauto]].
Qed.

(** one iteration from a state whose residual is right *)
Lemma newton_step_ok T st : nF st = F (nx st) -> exists r, newton_step n F qr lsolve junk T st = Ok r /\
  match r with
  | inl st' => fst (check n T (nF0 st) (nF st) (nx st) (vscal INF (fun _ => 1))) = true /\ nx st' = nx st /\ nF st' = F (nx st')
  | inr st' => fst (check n T (nF0 st) (nF st) (nx st) (vscal INF (fun _ => 1))) = false /\ nF st' = F (nx st') /\
      exists d s, nx st' = vadd (nx st) (vscal s d) /\ (s = 1 \/ vdot n (nF st') (nF st') <= (1 - c1 * s) * vdot n (nF st) (nF st)) /\ 0 <= s < 3 /\
        nF0 st' = snd (check n T (nF0 st) (nF st) (nx st) (vscal INF (fun _ => 1)))
  end.
Proof.
  intros HF. unfold newton_step. destruct (check n T (nF0 st) (nF st) (nx st) (vscal INF (fun _ => 1))) as [stop f0] eqn:EC. destruct stop.
  - eexists. split; [reflexivity|]. cbn. auto.
  - destruct (jac_solve_ok (nx st) (nF st) (nov st) (nF st) (Rmin (neta st) (neta st * nFn st))) as [d [ov' ->]]. cbn [bind].
    destruct (line_search_ok n F (nx st) (vscal (-1) d) 7 ltac:(lia)) as [s [k [E [D [S0 _]]]]]. rewrite HF, E. cbn [bind]. eexists. split; [reflexivity|]. cbn. split; [reflexivity|]. split; [reflexivity|].
    exists (vscal (-1) d), s. split; [reflexivity|]. unfold value in D. rewrite at_zero in D. unfold at_step in D.
    destruct D as [->|[D1 D2]]; [split; [left; reflexivity|]; split; [lra|reflexivity]|]. split; [right; lra|]. split; [lra|reflexivity].
Qed.
End Nw.
