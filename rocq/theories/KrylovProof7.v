(** The Newton iteration on affine functions. *)
From Coq Require Import Reals Lra Psatz Lia.
From Verif Require Import Base Sum KrylovModel KrylovSpec KrylovProof KrylovProof2 KrylovProof3 KrylovProof4 KrylovProof5.
Import List ListNotations.
Open Scope R_scope.

Section Dim.
Variable n : nat.
Notation vdot := (vdot n).
Notation vnorm := (vnorm n).
Lemma norm_ext u v : (forall i, (i < n)%nat -> u i = v i) -> vnorm u = vnorm v.
Proof. intros H. unfold KrylovModel.vnorm. f_equal. apply dot_ext; exact H. Qed.
Lemma norm_pos u : maxnorm n u <> 0 -> 0 < vnorm u.
Proof.
  intros H. assert (P := sqrt_pos (vdot u u)). fold (vnorm u) in P. destruct (Req_dec (vnorm u) 0) as [Z|Z]; [|lra]. exfalso. apply H. apply maxabs_zero. apply norm_zero, Z.
Qed.
Lemma id_matrix : is_matrix n (fun v => v).
Proof. exists delta. intros v i Hi. rewrite (rsum_single n i); [rewrite delta_same; ring|exact Hi|]. intros k _ N. rewrite delta_other by auto. ring. Qed.
Lemma diff_step_pos x f : 0 < diff_step n x f.
Proof.
  unfold diff_step. apply Rmult_lt_0_compat; [apply Rmult_lt_0_compat; [apply sqrt_lt_R0, mEPS_pos|]|apply Rinv_0_lt_compat]; (eapply Rlt_le_trans; [apply Rlt_0_1|apply Rmax_l]).
Qed.
Section Affine.
Variable F : dv -> dv.
Variables (A : dmat) (b : dv).
Hypothesis HF : forall v i, (i < n)%nat -> F v i = rsum n (fun j => A i j * v j) + b i.
(** the finite difference is exact *)
Lemma jac_exact x0 v i : (i < n)%nat -> jac_matvec n F x0 (F x0) v i = rsum n (fun j => A i j * v j).
Proof.
  intros Hi. unfold jac_matvec. destruct (Req_EM_T (vnorm v) 0) as [Z|Z].
  - unfold vscal. rewrite rsum_zero; [ring|]. intros k Hk. rewrite (norm_zero n v Z k Hk). ring.
  - assert (D := diff_step_pos x0 (F x0)). set (s := diff_step n x0 (F x0) / vnorm v). assert (S0 : s <> 0) by (unfold s, Rdiv; apply Rmult_integral_contrapositive_currified; [lra|apply Rinv_neq_0_compat, Z]).
    unfold vscal at 1, vsub. rewrite !HF by exact Hi. unfold vadd, vscal. rewrite (rsum_ext n (fun j => A i j * (x0 j + s * v j)) (fun j => A i j * x0 j + s * (A i j * v j))) by (intros; ring). rewrite rsum_plus, rsum_scal. field. exact S0.
Qed.
Variable qr : nat -> nat -> dmat -> dmat * dmat.
Variable lsolve : nat -> dmat -> dv -> dv.
Variable junk : dv.
Hypothesis HQ : qr_ok qr.
Hypothesis HL : lsq_ok lsolve.
Lemma jac_solve_affine x ov tol d ov' : 0 <= tol -> jac_solve n F qr lsolve junk x (F x) ov (F x) tol = Ok (d, ov') -> vnorm (F (vadd x (vscal 1 (vscal (-1) d)))) <= vnorm (F x).
Proof.
  intros HT E. unfold jac_solve, lgmres in E. destruct (outer n (jac_matvec n F x (F x)) (fun v => v) qr lsolve junk 1 _ _ _ _ _ _ _) as [[[d1 ov1] k1]| | |] eqn:EO; try discriminate. cbn [bind] in E. injection E as <- <-.
  assert (M : is_matrix n (jac_matvec n F x (F x))) by (exists A; intros v i Hi; apply jac_exact, Hi).
  assert (R1 := outer_monotone n (jac_matvec n F x (F x)) (fun v => v) qr lsolve junk M id_matrix HQ HL 1 _ _ _ _ _ _ _ _ _ _ (fun v H => H) HT EO). cbv beta in R1.
  rewrite (norm_ext (F (vadd x (vscal 1 (vscal (-1) d1)))) (vscal (-1) (vsub (jac_matvec n F x (F x) d1) (F x)))).
  - unfold KrylovModel.vnorm in *. rewrite dot_scal_r, dot_comm, dot_scal_r. replace (-1 * (-1 * vdot (vsub (jac_matvec n F x (F x) d1) (F x)) (vsub (jac_matvec n F x (F x) d1) (F x)))) with (vdot (vsub (jac_matvec n F x (F x) d1) (F x)) (vsub (jac_matvec n F x (F x) d1) (F x))) by ring. eapply Rle_trans; [exact R1|]. right. f_equal.
    assert (Z : forall i, (i < n)%nat -> vsub (jac_matvec n F x (F x) (vscal 0 (F x))) (F x) i = vscal (-1) (F x) i). { intros i Hi. unfold vsub. rewrite jac_exact by exact Hi. unfold vscal. rewrite rsum_zero by (intros; ring). ring. }
    rewrite (dot_ext n _ _ _ _ Z Z), dot_scal_r, dot_comm, dot_scal_r. ring.
  - intros i Hi. unfold vscal at 3, vsub. rewrite jac_exact, !HF by exact Hi. unfold vadd, vscal. rewrite (rsum_ext n (fun j => A i j * (x j + 1 * (-1 * d1 j))) (fun j => A i j * x j - A i j * d1 j)) by (intros; ring). rewrite rsum_minus. ring.
Qed.
Definition affine_inv (x0 : dv) (st : newton) : Prop :=
  nF st = F (nx st) /\ 0 <= neta st /\ (maxnorm n (nF st) <> 0 -> 0 < nFn st) /\ vnorm (F (nx st)) <= vnorm (F x0).
Lemma newton_step_affine x0 T st r : affine_inv x0 st -> newton_step n F qr lsolve junk T st = Ok r -> match r with inl s => affine_inv x0 s | inr s => affine_inv x0 s end.
Proof.
  intros [I1 [I2 [I3 I4]]] E. unfold newton_step in E. destruct (check n T (nF0 st) (nF st) (nx st) (vscal INF (fun _ => 1))) as [stop f0] eqn:EC. destruct stop; [injection E as <-; repeat split; assumption|].
  assert (NZ : maxnorm n (nF st) <> 0). { intros Z. unfold check in EC. rewrite Z in EC. destruct (Req_EM_T 0 0); [discriminate|congruence]. }
  specialize (I3 NZ). assert (TP : 0 <= Rmin (neta st) (neta st * nFn st)) by (apply Rmin_glb; [exact I2|apply Rmult_le_pos; lra]).
  destruct (jac_solve n F qr lsolve junk (nx st) (nF st) (nov st) (nF st) (Rmin (neta st) (neta st * nFn st))) as [[d ov']| | |] eqn:EJ; try discriminate. cbn [bind] in E. rewrite I1 in EJ. apply jac_solve_affine in EJ; [|exact TP].
  destruct (line_search_ok n F (nx st) (vscal (-1) d) 7 ltac:(lia)) as [s [k [EL [D [S0 _]]]]]. rewrite I1, EL in E. cbn [bind] in E. injection E as <-. unfold affine_inv. cbn [nF nx neta nFn].
  split; [reflexivity|]. split.
  - assert (G : 0 <= eta_max) by (unfold eta_max; lra). assert (EA : 0 <= gamma * vnorm (F (vadd (nx st) (vscal s (vscal (-1) d)))) * vnorm (F (vadd (nx st) (vscal s (vscal (-1) d)))) / (nFn st * nFn st)).
    { apply Rle_mult_inv_pos; [|apply Rmult_lt_0_compat; exact I3]. rewrite Rmult_assoc. apply Rmult_le_pos; [unfold gamma; lra|apply Rle_0_sqr]. }
    destruct (Rlt_dec _ _); apply Rmin_glb; try exact G; [exact EA|]. eapply Rle_trans; [exact EA|apply Rmax_l].
  - split; [apply norm_pos|]. eapply Rle_trans; [|exact I4]. destruct D as [->|[D1 D2]]; [exact EJ|]. unfold KrylovModel.vnorm. apply sqrt_le_1_alt. unfold value in D2. rewrite at_zero in D2. unfold at_step in D2. eapply Rle_trans; [exact D2|]. assert (P := vdot_nonneg n (F (nx st))). unfold c1. assert (0 <= 1 / 10000 * s * vdot (F (nx st)) (F (nx st))); [|lra]. apply Rmult_le_pos; [lra|exact P].
Qed.
Lemma newton_loop_affine x0 T m : forall st st' k, affine_inv x0 st -> newton_loop n F qr lsolve junk m T st = Ok (st', k) -> affine_inv x0 st'.
Proof.
  induction m as [|m IH]; intros st st' k I E; cbn [newton_loop] in E; [injection E as <- _; exact I|]. destruct (newton_step n F qr lsolve junk T st) as [r| | |] eqn:ES; try discriminate. cbn [bind] in E. assert (R1 := newton_step_affine _ _ _ _ I ES). destruct r as [s|s]; [injection E as <- _; exact R1|].
  destruct (newton_loop n F qr lsolve junk m T s) as [[s1 k1]| | |] eqn:EL; try discriminate. cbn [bind] in E. injection E as <- <-. apply (IH _ _ _ R1 EL).
Qed.
End Affine.
End Dim.
