(** LGMRES: Krylov spaces, exactness and the residual over all outer iterations. *)
From Coq Require Import Reals Lra Psatz Lia.
From Verif Require Import Base Sum KrylovModel KrylovSpec KrylovProof KrylovProof2 KrylovProof3 KrylovProof4.
Import List ListNotations.
Open Scope R_scope.

Section Dim.
Variable n : nat.
Notation vdot := (vdot n).
Notation vnorm := (vnorm n).
Notation orthonormal := (orthonormal n).
Section Arn.
Variables matvec psolve : dv -> dv.
Variable qr : nat -> nat -> dmat -> dmat * dmat.
Variable lsolve : nat -> dmat -> dv -> dv.
Variable junk : dv.
Hypothesis HM : is_matrix n matvec.
Hypothesis HP : is_matrix n psolve.
Hypothesis HQ : qr_ok qr.
Hypothesis HL : lsq_ok lsolve.
Notation correction := (correction n matvec psolve qr lsolve junk).
Notation outer := (outer n matvec psolve qr lsolve junk).
Notation B v := (psolve (matvec v)).
Notation Bf := (fun v => psolve (matvec v)).
Notation arn := (arn n matvec psolve).
Notation ended := (ended n matvec psolve).
Let HBm : is_matrix n Bf := HB n matvec psolve HM HP.

Lemma krylov_step k rho z : krylov n Bf k rho z -> krylov n Bf (S k) rho (B z).
Proof.
  intros [c Hc]. exists (fun l => match l with O => 0 | S l => c l end). intros i Hi. assert (E := mat_ext n Bf _ _ HBm Hc i Hi). cbv beta in E. rewrite E. assert (M := mat_lin n Bf k c (fun l => power Bf l rho) HBm i Hi). cbv beta in M. rewrite M.
  unfold lincomb. rewrite rsum_S_l. cbn [power]. ring.
Qed.
Lemma rel_trunc vs0 q st c i : arn vs0 q st -> (c < q)%nat -> (i < n)%nat -> B (vec (aws st) c) i = lincomb (S (S c)) (fun r => hess q st r c) (vec (avs st)) i.
Proof.
  intros I Hc Hi. rewrite (ar_rel _ _ _ _ _ _ I c i Hc Hi). unfold lincomb. replace (S q) with (S (S c) + (q - S c))%nat by lia. rewrite rsum_split, (rsum_zero (q - S c)); [ring|]. intros k Hk. rewrite (ar_hes _ _ _ _ _ _ I) by lia. ring.
Qed.
Lemma plain_ws vs0 j st : ended [] vs0 j st -> forall i, (i < j)%nat -> vec (aws st) i = vec (avs st) i.
Proof.
  intros E i Hi. rewrite (en_p _ _ _ _ _ _ _ E i Hi). cbn [List.length Nat.ltb Nat.leb]. destruct (Nat.eqb_spec i 0) as [->|N]; [|reflexivity]. symmetry. apply (ar_0 _ _ _ _ _ _ (en_arn _ _ _ _ _ _ _ E)).
Qed.
Section Plain.
Variables (vs0 rho : dv) (N : R) (j : nat) (st : arnoldi).
Hypothesis HN : N <> 0.
Hypothesis HR : forall i, (i < n)%nat -> rho i = - (N * vs0 i).
Hypothesis HE : ended [] vs0 j st.
Let I := en_arn _ _ _ _ _ _ _ HE.
Lemma v_krylov i : (i < j)%nat -> krylov n Bf (S i) rho (vec (avs st) i).
Proof.
  induction i as [i IH] using lt_wf_ind. intros Hi. destruct i as [|c].
  - rewrite (ar_0 _ _ _ _ _ _ I). exists (fun _ => - / N). intros k Hk. unfold lincomb. cbn. rewrite (HR k Hk). field. exact HN.
  - assert (SN := en_sub _ _ _ _ _ _ _ HE c Hi). apply (span_ext n (S (S c)) _ (vscal (/ hess j st (S c) c) (vsub (B (vec (avs st) c)) (lincomb (S c) (fun r => hess j st r c) (vec (avs st)))))).
    + intros k Hk. unfold vscal, vsub. rewrite <- (plain_ws _ _ _ HE c) by lia. rewrite (rel_trunc _ _ _ _ _ I) by lia. unfold lincomb. cbn [rsum]. field. exact SN.
    + apply span_scal, span_sub; [apply krylov_step, IH; lia|]. apply span_lin. intros r Hr. apply (span_mono n (S r)); [lia|]. apply IH; lia.
Qed.
Lemma power_span k : (k < j)%nat -> inspan n (S k) (vec (avs st)) (power Bf k rho).
Proof.
  induction k as [|k IH]; intros Hk.
  - exists (fun _ => - N). intros i Hi. unfold lincomb. cbn [rsum power]. rewrite (ar_0 _ _ _ _ _ _ I), HR by exact Hi. ring.
  - destruct (IH ltac:(lia)) as [c Hc]. cbn [power]. apply (span_ext n (S (S k)) _ (lincomb (S k) c (fun r => B (vec (avs st) r)))).
    + intros i Hi. rewrite (mat_ext n Bf _ _ HBm Hc i Hi). exact (mat_lin n Bf (S k) c (vec (avs st)) HBm i Hi).
    + apply span_lin. intros r Hr. apply (span_mono n (S (S r))); [lia|]. exists (fun s => hess j st s r). intros i Hi. rewrite <- (plain_ws _ _ _ HE r) by lia. apply (rel_trunc _ _ _ _ _ I); lia.
Qed.
Lemma plain_span z : inspan n j (vec (aws st)) z <-> krylov n Bf j rho z.
Proof.
  split; intros H; [apply (span_trans n j _ j (vec (aws st)))|apply (span_trans n j _ j (fun l => power Bf l rho))]; try exact H; intros r Hr.
  - rewrite (plain_ws _ _ _ HE r Hr). apply (span_mono n (S r)); [lia|]. apply v_krylov, Hr.
  - destruct (power_span r Hr) as [c Hc]. apply (span_mono n (S r)); [lia|]. exists c. intros i Hi. rewrite Hc by exact Hi. unfold lincomb. apply rsum_ext. intros s Hs. rewrite (plain_ws _ _ _ HE s) by lia. reflexivity.
Qed.
(** how far the last search direction is from being mapped into the space *)
Lemma last_distance l : j = S l -> vnorm (vsub (B (vec (avs st) l)) (lincomb j (fun r => hess j st r l) (vec (avs st)))) = Rabs (hess j st j l).
Proof.
  intros EJ. assert (D : forall i, (i < n)%nat -> vsub (B (vec (avs st) l)) (lincomb j (fun r => hess j st r l) (vec (avs st))) i = vscal (hess j st j l) (vec (avs st) j) i).
  { intros i Hi. unfold vsub, vscal. rewrite <- (plain_ws _ _ _ HE l) by lia. rewrite (ar_rel _ _ _ _ _ _ I l i) by lia. unfold lincomb. cbn [rsum]. ring. }
  unfold KrylovModel.vnorm. rewrite (dot_ext n _ _ _ _ D D), dot_scal_r, dot_comm, dot_scal_r. destruct (en_b _ _ _ _ _ _ _ HE) as [O|[_ [_ Z]]].
  - rewrite O, delta_same by lia. rewrite <- sqrt_Rsqr_abs. f_equal. unfold Rsqr. ring.
  - rewrite Z by lia. rewrite !Rmult_0_l, Rabs_R0. apply sqrt_0.
Qed.
End Plain.

(** the residual after a correction, from the residual before it *)
Lemma after b x dx : forall i, (i < n)%nat -> psolve (vsub (matvec (vadd x dx)) b) i = vadd (psolve (vsub (matvec x) b)) (B dx) i.
Proof.
  intros i Hi. unfold vadd at 2. rewrite <- (mat_add n psolve _ _ HP i Hi). apply (mat_ext n psolve _ _ HP); [|exact Hi]. intros k Hk. unfold vadd at 2, vsub. rewrite (mat_add n matvec _ _ HM k Hk). ring.
Qed.
Lemma after_norm b x dx : vnorm (psolve (vsub (matvec (vadd x dx)) b)) = vnorm (vadd (psolve (vsub (matvec x) b)) (B dx)).
Proof. unfold KrylovModel.vnorm. f_equal. apply dot_ext; apply after. Qed.
Lemma add_zero z u : (forall i, (i < n)%nat -> z i = 0) -> vnorm (vadd u (B z)) = vnorm u.
Proof.
  intros Z. unfold KrylovModel.vnorm. f_equal. assert (E : forall i, (i < n)%nat -> vadd u (B z) i = u i); [|apply dot_ext; exact E]. intros i Hi. unfold vadd. assert (X := mat_ext n Bf z (vscal 0 z) HBm). cbv beta in X. rewrite X; [|intros k Hk; unfold vscal; rewrite Z by exact Hk; ring|exact Hi]. assert (Y := mat_scal n Bf 0 z HBm i Hi). cbv beta in Y. rewrite Y. ring.
Qed.
Lemma correction_monotone ov tol inner_m r dx : vnorm (psolve r) <> 0 -> correction ov tol inner_m r = Ok dx -> vnorm (vadd (psolve r) (B dx)) <= vnorm (psolve r).
Proof.
  intros NZ E. destruct (correction_opt n matvec psolve qr lsolve junk HM HP HQ HL _ _ _ _ _ NZ E) as [st [j [vs0 [_ [_ [_ [_ [_ [_ [_ M]]]]]]]]]].
  rewrite <- (add_zero vzero (psolve r)) by reflexivity. apply M. exists (fun _ => 0). intros i _. unfold vzero, lincomb. symmetry. apply rsum_zero. intros. ring.
Qed.
Lemma outer_monotone m : forall b x ov tol bn inner_m outer_k x' ov' k, (forall v, vnorm (psolve v) = 0 -> vnorm v = 0) -> 0 <= tol ->
  outer m b x ov tol bn inner_m outer_k = Ok (x', ov', k) -> vnorm (psolve (vsub (matvec x') b)) <= vnorm (psolve (vsub (matvec x) b)).
Proof.
  induction m as [|m IH]; intros b x ov tol bn inner_m outer_k x' ov' k HI HT E; cbn [KrylovModel.outer] in E; [injection E as <- _ _; lra|].
  destruct (Rle_dec _ (tol * bn)); [injection E as <- _ _; lra|]. destruct (Rle_dec (vnorm (vsub (matvec x) b)) tol) as [|NT]; [injection E as <- _ _; lra|].
  destruct (correction ov tol inner_m (vsub (matvec x) b)) as [dx| | |] eqn:EC; try discriminate. cbn [bind] in E.
  destruct (outer m b (vadd x dx) _ _ _ _ _) as [[[x1 ov1] k1]| | |] eqn:EO; try discriminate. cbn [bind] in E. injection E as <- <- <-. apply IH in EO; [|exact HI|exact HT].
  eapply Rle_trans; [exact EO|]. rewrite after_norm. apply (correction_monotone ov tol inner_m); [|exact EC]. intros Z. apply NT. rewrite (HI _ Z). exact HT.
Qed.

(** ** one restart without recycled vectors *)
(** the conclusion for one run of the inner loop: the new residual is minimal over a Krylov space; [stop] says why
    the space was not larger *)
Definition near_invariant (j : nat) (rho : dv) (lo : R -> Prop) : Prop :=
  exists w z, krylov n Bf j rho w /\ krylov n Bf j rho z /\ vnorm w = 1 /\ lo (vnorm (vsub (B w) z)) /\ vnorm (vsub (B w) z) <= mEPS * vnorm (B w).
Lemma plain_correction tol inner_m r dx : vnorm (psolve r) <> 0 -> correction [] tol inner_m r = Ok dx ->
  exists j, (1 <= j <= inner_m)%nat /\ krylov n Bf j (psolve r) dx /\
    (forall z, krylov n Bf j (psolve r) z -> vnorm (vadd (psolve r) (B dx)) <= vnorm (vadd (psolve r) (B z))) /\
    (j = inner_m \/ vnorm (vadd (psolve r) (B dx)) <= tol * vnorm (psolve r) \/ near_invariant j (psolve r) (fun _ => True)) /\
    ((n <= inner_m)%nat -> 0 <= tol -> (forall v, vnorm (B v) = 0 -> vnorm v = 0) ->
      vnorm (vadd (psolve r) (B dx)) <= tol * vnorm (psolve r) \/ near_invariant j (psolve r) (fun d => 0 < d)).
Proof.
  intros NZ E. destruct (correction_opt n matvec psolve qr lsolve junk HM HP HQ HL _ _ _ _ _ NZ E) as [st [j [vs0 [J1 [J2 [EN [PR [EX [SP [RN M]]]]]]]]]]. cbn [List.length] in *. rewrite Nat.add_0_r in *.
  set (N := vnorm (psolve r)) in *. assert (N0 : 0 <= N) by apply sqrt_pos. assert (PS := fun z => plain_span vs0 (psolve r) N j st NZ PR EN z). assert (I := en_arn _ _ _ _ _ _ _ EN). assert (O := en_o _ _ _ _ _ _ _ EN).
  assert (VK : forall i, (i < j)%nat -> krylov n Bf j (psolve r) (vec (avs st) i)) by (intros i Hi; apply PS; rewrite <- (plain_ws _ _ _ EN i Hi); apply span_member, Hi).
  assert (NI : forall l (lo : R -> Prop), j = S l -> lo (Rabs (hess j st j l)) -> Rabs (hess j st j l) <= mEPS * vnorm (B (vec (avs st) l)) -> near_invariant j (psolve r) lo).
  { intros l lo EJ LO LE. exists (vec (avs st) l), (lincomb j (fun r => hess j st r l) (vec (avs st))). split; [apply VK; lia|]. split; [apply span_lin; exact VK|]. split; [unfold KrylovModel.vnorm; rewrite O, delta_same by lia; apply sqrt_1|]. rewrite (last_distance vs0 j st EN l EJ). split; [exact LO|exact LE]. }
  assert (W0 : forall l, 0 <= mEPS * vnorm (B (vec (avs st) l))) by (intros l; apply Rmult_le_pos; [left; apply mEPS_pos|apply sqrt_pos]).
  assert (TRI : (forall c, (c < j)%nat -> aR st c c <> 0) -> vnorm (vadd (psolve r) (B dx)) = Rabs (aQ st 0%nat j) * N).
  { intros D. rewrite (misfit_solved n matvec psolve lsolve HL vs0 j st _ I D) in RN. unfold KrylovModel.vnorm at 1. rewrite RN. replace (Rabs (aQ st 0%nat j) * N) with (sqrt (Rsqr (aQ st 0%nat j)) * sqrt (Rsqr N)) by (rewrite sqrt_Rsqr_abs, (sqrt_Rsqr N N0); reflexivity). rewrite <- sqrt_mult by apply Rle_0_sqr. f_equal. unfold Rsqr. ring. }
  assert (FULL : forall l, j = S l -> hess j st j l <> 0 -> forall c, (c < j)%nat -> aR st c c <> 0).
  { intros l EJ H0. apply (tri_inj n matvec psolve vs0 j st I). apply (hess_inj n matvec psolve vs0 j st I). intros c Hc. destruct (Nat.eq_dec c l) as [->|NC]; [rewrite <- EJ; exact H0|]. apply (en_sub _ _ _ _ _ _ _ EN). lia. }
  exists j. split; [lia|]. split; [apply PS, SP|]. split; [intros z Hz; apply M, PS, Hz|]. split.
  - destruct EX as [[EX _]|[l [EJ EX]]]; [left; exact EX|right]. destruct (Req_dec (hess j st j l) 0) as [Z|Z]; [right; apply (NI l); [exact EJ|exact Logic.I|rewrite Z, Rabs_R0; apply W0]|].
    destruct EX as [EX|[H0 EX]]; [left; rewrite (TRI (FULL l EJ Z)); exact EX|right]. apply (NI l); [exact EJ|exact Logic.I|]. rewrite Rabs_pos_eq by exact H0. rewrite <- (plain_ws _ _ _ EN l) by lia. exact EX.
  - intros NI' HT HI. destruct EX as [[EX GO]|[l [EJ EX]]]; [exfalso; apply go_o in GO; apply orth_max in GO; lia|]. destruct (Req_dec (hess j st j l) 0) as [Z|Z].
    + left. assert (HZ : forall c, (c < j)%nat -> hess j st j c = 0). { intros c Hc. destruct (Nat.eq_dec c l) as [->|NC]; [exact Z|]. apply (ar_hes _ _ _ _ _ _ I); lia. }
      assert (D : forall c, (c < j)%nat -> aR st c c <> 0).
      { apply (tri_inj n matvec psolve vs0 j st I). intros y HY. assert (BZ : vnorm (B (lincomb j y (vec (aws st)))) = 0).
        { unfold KrylovModel.vnorm. assert (X : forall i, (i < n)%nat -> B (lincomb j y (vec (aws st))) i = 0); [|rewrite (dot_ext n _ vzero _ vzero X X); unfold KrylovModel.vdot, vzero; rewrite rsum_zero by (intros; ring); apply sqrt_0].
          intros i Hi. assert (Y := mat_lin n Bf j y (vec (aws st)) HBm i Hi). cbv beta in Y. rewrite Y. transitivity (rsum j (fun c => rsum (S j) (fun r => hess j st r c * y c * vec (avs st) r i))).
          - apply rsum_ext. intros c Hc. rewrite (ar_rel _ _ _ _ _ _ I c i Hc Hi), <- rsum_scal. apply rsum_ext. intros. ring.
          - rewrite rsum_swap. apply rsum_zero. intros r' Hr'. rewrite rsum_scal_r, HY by exact Hr'. ring. }
        apply HI in BZ. intros c Hc. assert (Y := norm_zero n _ BZ). assert (T : vdot (vec (avs st) c) (lincomb j y (vec (aws st))) = 0) by (unfold KrylovModel.vdot; apply rsum_zero; intros i Hi; rewrite Y by exact Hi; ring).
        rewrite dot_lin_r, (rsum_single j c) in T; [|exact Hc|].
        - rewrite (plain_ws _ _ _ EN c Hc), O, delta_same in T by exact Hc. lra.
        - intros s Hs NS. rewrite (plain_ws _ _ _ EN s Hs), O, delta_other by (assumption || auto). ring. }
      rewrite (TRI D), (breakdown_zero n matvec psolve vs0 j st I J1 HZ D), Rabs_R0, Rmult_0_l. apply Rmult_le_pos; assumption.
    + destruct EX as [EX|[H0 EX]]; [left; rewrite (TRI (FULL l EJ Z)); exact EX|right]. apply (NI l); [exact EJ|apply Rabs_pos_lt, Z|]. rewrite Rabs_pos_eq by exact H0. rewrite <- (plain_ws _ _ _ EN l) by lia. exact EX.
Qed.
End Arn.
End Dim.
