(** C72, C73: LGMRES and the Newton solver in exact arithmetic. *)
From Coq Require Import Reals Lra Psatz Lia.
From Verif Require Import Base Sum KrylovModel KrylovSpec KrylovProof KrylovProof2 KrylovProof3 KrylovProof4 KrylovProof5 KrylovProof6 KrylovProof7.
Import List ListNotations.
Open Scope R_scope.

(** decompositions as asked for exist *)
Example oracles_exist : exists qr lsolve, qr_ok qr /\ lsq_ok lsolve.
Proof. exists qr_house, lsolve_ls. split; [apply qr_house_ok|apply lsolve_ls_ok]. Qed.

(** ** C72 *)
(** One restart without recycled vectors: unless the residual was within the tolerance already, the correction lies in
    a Krylov space of the preconditioned operator and its residual is the smallest that any correction in that space
    has.  The space is as large as was asked for, unless the residual got within the tolerance or the operator maps a
    unit vector of the space into it up to the rounding unit. *)
Theorem gmres_optimal : forall n matvec psolve qr lsolve junk b x tol inner_m outer_k x' ov k,
  is_matrix n matvec -> is_matrix n psolve -> qr_ok qr -> lsq_ok lsolve -> 0 <= tol -> (forall v, vnorm n (psolve v) = 0 -> vnorm n v = 0) ->
  lgmres n matvec psolve qr lsolve junk b x [] tol 1 inner_m outer_k = Ok (x', ov, k) ->
  let f := fun v => psolve (matvec v) in
  let res y := vnorm n (psolve (vsub (matvec y) b)) in
  let rho := psolve (vsub (matvec x) b) in
  (k = 0%nat /\ x' = x) \/
  exists j dx, x' = vadd x dx /\ (1 <= j <= inner_m)%nat /\ krylov n f j rho dx /\
    (forall z, krylov n f j rho z -> res x' <= res (vadd x z)) /\
    (j = inner_m \/ res x' <= tol * res x \/
     exists w z, krylov n f j rho w /\ krylov n f j rho z /\ vnorm n w = 1 /\ vnorm n (vsub (f w) z) <= mEPS * vnorm n (f w)).
Proof.
  intros n matvec psolve qr lsolve junk b x tol inner_m outer_k x' ov k HM HP HQ HL HT HI E f res rho. unfold lgmres in E. cbn [outer] in E.
  destruct (Rle_dec _ _); [injection E as <- _ <-; left; split; reflexivity|]. destruct (Rle_dec _ tol) as [|NT]; [injection E as <- _ <-; left; split; reflexivity|]. right.
  destruct (correction n matvec psolve qr lsolve junk [] tol inner_m (vsub (matvec x) b)) as [dx| | |] eqn:EC; try discriminate. cbn [bind] in E. injection E as <- _ _.
  destruct (plain_correction n matvec psolve qr lsolve junk HM HP HQ HL tol inner_m (vsub (matvec x) b) dx) as [j [J1 [J2 [J3 [J4 _]]]]]; [intros Z; apply NT; rewrite (HI _ Z); exact HT|exact EC|].
  exists j, dx. split; [reflexivity|]. split; [exact J1|]. split; [exact J2|]. unfold res. split.
  - intros z Hz. rewrite !after_norm by assumption. apply J3, Hz.
  - rewrite after_norm by assumption. destruct J4 as [J4|[J4|[w [z [W [Z [W1 [_ D]]]]]]]]; [left; exact J4|right; left; exact J4|right; right]. exists w, z. repeat split; assumption.
Qed.
Print Assumptions gmres_optimal.

(** With as many inner iterations as unknowns and an invertible operator the residual is brought within the
    tolerance; the only other way out is a vector that is almost (but not quite) mapped into the space. *)
Theorem gmres_converges : forall n matvec psolve qr lsolve junk b x tol inner_m outer_k x' ov k,
  is_matrix n matvec -> is_matrix n psolve -> qr_ok qr -> lsq_ok lsolve -> 0 <= tol -> (forall v, vnorm n (psolve v) = 0 -> vnorm n v = 0) ->
  (forall v, vnorm n (matvec v) = 0 -> vnorm n v = 0) -> (n <= inner_m)%nat ->
  lgmres n matvec psolve qr lsolve junk b x [] tol 1 inner_m outer_k = Ok (x', ov, k) ->
  let f := fun v => psolve (matvec v) in
  let res y := vnorm n (psolve (vsub (matvec y) b)) in
  (k = 0%nat /\ x' = x) \/ res x' <= tol * res x \/
  exists w z, vnorm n w = 1 /\ 0 < vnorm n (vsub (f w) z) <= mEPS * vnorm n (f w).
Proof.
  intros n matvec psolve qr lsolve junk b x tol inner_m outer_k x' ov k HM HP HQ HL HT HI HI2 HN E f res. unfold lgmres in E. cbn [outer] in E.
  destruct (Rle_dec _ _); [injection E as <- _ <-; left; split; reflexivity|]. destruct (Rle_dec _ tol) as [|NT]; [injection E as <- _ <-; left; split; reflexivity|]. right.
  destruct (correction n matvec psolve qr lsolve junk [] tol inner_m (vsub (matvec x) b)) as [dx| | |] eqn:EC; try discriminate. cbn [bind] in E. injection E as <- _ _.
  destruct (plain_correction n matvec psolve qr lsolve junk HM HP HQ HL tol inner_m (vsub (matvec x) b) dx) as [j [_ [_ [_ [_ J]]]]]; [intros Z; apply NT; rewrite (HI _ Z); exact HT|exact EC|].
  destruct (J HN HT) as [J1|[w [z [_ [_ [W1 [D1 D2]]]]]]]; [intros v Z; apply HI2, HI, Z| |]; [left; unfold res; rewrite after_norm by assumption; exact J1|right]. exists w, z. split; [exact W1|]. split; assumption.
Qed.
Print Assumptions gmres_converges.

(** With recycled vectors: the correction is the best one in a space that contains the recycled vectors it got to, and
    the direction of the residual once it has used them all. *)
Theorem lgmres_augmented : forall n matvec psolve qr lsolve junk b x ov0 tol inner_m outer_k x' ov k,
  is_matrix n matvec -> is_matrix n psolve -> qr_ok qr -> lsq_ok lsolve -> 0 <= tol -> (forall v, vnorm n (psolve v) = 0 -> vnorm n v = 0) ->
  lgmres n matvec psolve qr lsolve junk b x ov0 tol 1 inner_m outer_k = Ok (x', ov, k) ->
  let res y := vnorm n (psolve (vsub (matvec y) b)) in
  (k = 0%nat /\ x' = x) \/
  exists j W dx, x' = vadd x dx /\ (1 <= j <= inner_m + List.length ov0)%nat /\ inspan n j W dx /\
    (forall z, inspan n j W z -> res x' <= res (vadd x z)) /\
    (forall i, (i < j)%nat -> (i < List.length ov0)%nat -> W i = nth i ov0 vzero) /\
    ((List.length ov0 < j)%nat -> forall i, (i < n)%nat -> psolve (vsub (matvec x) b) i = - (res x * W (List.length ov0) i)).
Proof.
  intros n matvec psolve qr lsolve junk b x ov0 tol inner_m outer_k x' ov k HM HP HQ HL HT HI E res. unfold lgmres in E. cbn [outer] in E.
  destruct (Rle_dec _ _); [injection E as <- _ <-; left; split; reflexivity|]. destruct (Rle_dec _ tol) as [|NT]; [injection E as <- _ <-; left; split; reflexivity|]. right.
  destruct (correction n matvec psolve qr lsolve junk ov0 tol inner_m (vsub (matvec x) b)) as [dx| | |] eqn:EC; try discriminate. cbn [bind] in E. injection E as <- _ _.
  assert (NZ : vnorm n (psolve (vsub (matvec x) b)) <> 0) by (intros Z; apply NT; rewrite (HI _ Z); exact HT).
  destruct (correction_opt n matvec psolve qr lsolve junk HM HP HQ HL _ _ _ _ _ NZ EC) as [st [j [vs0 [J1 [J2 [EN [PR [_ [SP [_ M]]]]]]]]]].
  exists j, (vec (aws st)), dx. split; [reflexivity|]. split; [lia|]. split; [exact SP|]. assert (P := en_p _ _ _ _ _ _ _ EN). split; [|split].
  - intros z Hz. unfold res. rewrite !after_norm by assumption. apply M, Hz.
  - intros i Hi Hl. rewrite (P i Hi). destruct (Nat.ltb_spec i (List.length ov0)); [reflexivity|lia].
  - intros Hj i Hi. rewrite (P _ Hj), Nat.ltb_irrefl, Nat.eqb_refl. apply PR, Hi.
Qed.
Print Assumptions lgmres_augmented.

(** Over any number of restarts, with any recycled vectors, the preconditioned residual never grows. *)
Theorem lgmres_monotone : forall n matvec psolve qr lsolve junk b x ov tol maxiter inner_m outer_k x' ov' k,
  is_matrix n matvec -> is_matrix n psolve -> qr_ok qr -> lsq_ok lsolve -> 0 <= tol -> (forall v, vnorm n (psolve v) = 0 -> vnorm n v = 0) ->
  lgmres n matvec psolve qr lsolve junk b x ov tol maxiter inner_m outer_k = Ok (x', ov', k) ->
  vnorm n (psolve (vsub (matvec x') b)) <= vnorm n (psolve (vsub (matvec x) b)).
Proof.
  intros n matvec psolve qr lsolve junk b x ov tol maxiter inner_m outer_k x' ov' k HM HP HQ HL HT HI E. unfold lgmres in E. apply (outer_monotone n matvec psolve qr lsolve junk HM HP HQ HL) in E; assumption.
Qed.
Print Assumptions lgmres_monotone.
(** an instance with a correction: the system 2 x = 1 from zero, solved exactly *)
Example gmres_case : exists x' ov k, lgmres 1 (vscal 2) (fun v => v) qr_house lsolve_ls vzero (fun _ => 1) vzero [] 0 1 1 1 = Ok (x', ov, k) /\ (k = 1%nat) /\
  is_matrix 1 (vscal 2) /\ is_matrix 1 (fun v : dv => v) /\ (forall v, vnorm 1 (vscal 2 v) = 0 -> vnorm 1 v = 0).
Proof.
  unfold lgmres. cbn [outer]. assert (N1 : vnorm 1 (vsub (vscal 2 vzero) (fun _ => 1)) = 1) by (unfold vnorm, vdot, vsub, vscal, vzero; cbn; replace (0 + (2 * 0 - 1) * (2 * 0 - 1)) with 1 by ring; apply sqrt_1). rewrite N1.
  destruct (Rle_dec 1 _) as [L|_]; [exfalso; lra|]. destruct (Rle_dec 1 0) as [L|_]; [exfalso; lra|]. destruct (correction_ok 1 (vscal 2) (fun v => v) qr_house lsolve_ls vzero [] 0 1 (vsub (vscal 2 vzero) (fun _ => 1)) ltac:(cbn; lia)) as [dx E]. rewrite E. cbn [bind].
  do 3 eexists. split; [reflexivity|]. split; [reflexivity|]. split; [exists (fun _ _ => 2); intros v i Hi; assert (i = 0%nat) by lia; subst; unfold vscal; cbn; ring|]. split; [apply id_matrix|].
  intros v Z. apply norm_zero with (i := 0%nat) in Z; [|lia]. unfold vscal in Z. unfold vnorm, vdot. cbn. replace (v 0%nat) with 0 by lra. replace (0 + 0 * 0) with 0 by ring. apply sqrt_0.
Qed.

(** ** C73 *)
(** On an affine function the difference quotient the solver uses is the exact derivative ... *)
Theorem jacobian_affine : forall n F A b x0, (forall v i, (i < n)%nat -> F v i = rsum n (fun j => A i j * v j) + b i) ->
  forall v i, (i < n)%nat -> jac_matvec n F x0 (F x0) v i = rsum n (fun j => A i j * v j).
Proof. intros n F A b x0 H v i Hi. apply (jac_exact n F A b H x0 v i Hi). Qed.
Print Assumptions jacobian_affine.
(** ... and the residual of the point that is returned is at most that of the starting point. *)
Theorem newton_affine : forall n F qr lsolve junk T x st k, is_affine n F -> qr_ok qr -> lsq_ok lsolve ->
  nonlin_solve n F qr lsolve junk T x = Ok (st, k) -> vnorm n (F (nx st)) <= vnorm n (F x).
Proof.
  intros n F qr lsolve junk T x st k [A [b HF]] HQ HL E. unfold nonlin_solve in E. apply (newton_loop_affine n F A b HF qr lsolve junk HQ HL x) in E; [apply E|].
  unfold affine_inv. cbn. split; [reflexivity|]. split; [lra|]. split; [|lra]. intros H. assert (P := maxabs_nonneg n (F x)). unfold maxnorm in *. lra.
Qed.
Print Assumptions newton_affine.
Example newton_affine_case : is_affine 2 (fun x => vsub x (fun _ => 3)).
Proof. exists delta, (fun _ => -3). intros v i Hi. rewrite (delta_sum_l 2 i v Hi). unfold vsub. ring. Qed.
