(** The DG matrices of a Lagrange basis with an exact quadrature. *)
From Coq Require Import Reals Lra List Lia FinFun.
From Coquelicot Require Import Coquelicot.
From Verif Require Import Base Options Sum PolyModel PolyProof LegendreSpec WenoModel WenoProof WenoProof2 DgModel.
Import List ListNotations.
Open Scope R_scope.

(** a polynomial that vanishes on (0,1) vanishes everywhere *)
Lemma zero_interval p : (forall x, 0 < x < 1 -> evaluate p x = 0) -> forall t, evaluate p t = 0.
Proof.
  intros H t. rewrite <- heval_eval.
  apply (roots_zero (map (fun k => / (INR k + 2)) (seq 0 (length p)))).
  - apply Injective_map_NoDup; [|apply seq_NoDup]. intros i j E. apply (f_equal Rinv) in E. rewrite !Rinv_inv in E. apply INR_eq. lra.
  - rewrite map_length, seq_length. lia.
  - intros r Hr. apply in_map_iff in Hr. destruct Hr as [k [<- _]]. rewrite heval_eval. apply H.
    pose proof (pos_INR k). split; [apply Rinv_0_lt_compat; lra|]. rewrite <- Rinv_1. apply Rinv_lt_contravar; lra.
Qed.

(** a polynomial r with a vanishing integral of x r(x)^2 over [0,1] is zero away from 0 *)
Lemma weighted_square_zero r m : multiply r r = Ok m -> evaluate (integrate (0 :: m)) 1 = 0 -> forall t, t * evaluate r t = 0.
Proof.
  intros Em H1 t.
  assert (Hd : forall x, is_derive (evaluate (integrate (0 :: m))) x (x * (evaluate r x * evaluate r x))).
  { intros x. replace (x * (evaluate r x * evaluate r x)) with (evaluate (0 :: m) x); [apply integrate_derive|].
    rewrite eval_cons, (multiply_eval r r m x Em). ring. }
  set (G := evaluate (integrate (0 :: m))) in *.
  assert (G0 : G 0 = 0) by apply integrate_0.
  assert (Mono : forall x y, 0 <= x -> x <= y -> y <= 1 -> G x <= G y).
  { intros x y Hx Hxy Hy. destruct (MVT_gen G x y (fun x => x * (evaluate r x * evaluate r x))) as [c [Hc E]].
    - intros z _. apply Hd.
    - intros z _. apply derivable_continuous_pt. eexists. apply is_derive_Reals. apply Hd.
    - rewrite Rmin_left, Rmax_right in Hc by exact Hxy. assert (0 <= c * (evaluate r c * evaluate r c)); [|nra].
      apply Rmult_le_pos; [lra|apply (Rle_0_sqr (evaluate r c))]. }
  assert (Z : forall x, G x = 0).
  { apply zero_interval. intros x Hx. fold G. pose proof (Mono 0 x ltac:(lra) ltac:(lra) ltac:(lra)). pose proof (Mono x 1 ltac:(lra) ltac:(lra) ltac:(lra)). lra. }
  assert (E : t * (evaluate r t * evaluate r t) = 0).
  { pose proof (is_derive_unique _ _ _ (Hd t)) as U. rewrite <- U. rewrite (Derive_ext _ (fun _ => 0)) by (intros; apply Z). apply Derive_const. }
  destruct (Rmult_integral _ _ E) as [-> |E2]; [ring|]. destruct (Rmult_integral _ _ E2) as [-> | ->]; ring.
Qed.

Lemma derive_prod (f g : R -> R) t f' g' : is_derive f t f' -> is_derive g t g' -> is_derive (fun t => f t * g t) t (f t * g' + g t * f').
Proof.
  intros A B. pose proof (@is_derive_mult R_AbsRing f g t f' g' A B Rmult_comm) as H. unfold mult, plus in H. cbn in H.
  replace (f t * g' + g t * f') with (f' * g t + f t * g') by ring. exact H.
Qed.
Lemma derive_halfsq (f : R -> R) t f' : is_derive f t f' -> is_derive (fun t => f t ^ 2 / 2) t (f t * f').
Proof.
  intros A. pose proof (is_derive_scal (fun t => f t * f t) t (/ 2) _ (derive_prod f f t f' f' A A)) as H.
  replace (f t * f') with (/ 2 * (f t * f' + f t * f')) by field.
  apply (is_derive_ext (fun t => / 2 * (f t * f t))); [intros u; change (/ 2 * (f u * f u) = f u ^ 2 / 2); field|exact H].
Qed.

Section B.
Variables (nodes : list R) (bs : list poly) (w : nat -> R).
Hypothesis DN : distinct nodes.
Hypothesis HB : basis_polys nodes = Ok bs.
Let N := length nodes.
Hypothesis N1 : (1 <= N)%nat.
Let x (k : nat) := nth k nodes 0.
Hypothesis EX : forall p, (length p <= 2 * N)%nat -> is_RInt (evaluate p) 0 1 (quad N x w (evaluate p)).
Let b (j : nat) := nth j bs [].
Let psi (j : nat) (t : R) := evaluate (b j) t.
Definition dpoly (bs : list poly) (j : nat) : poly := match differentiate (nth j bs []) with Ok p => p | _ => [] end.
Let d (j : nat) := dpoly bs j.
Let dpsi (j : nat) (t : R) := evaluate (d j) t.

Lemma b_len j : (j < N)%nat -> length (b j) = N.
Proof. apply (basis_len nodes bs HB). Qed.
Lemma b_node i j : (i < N)%nat -> (j < N)%nat -> psi i (x j) = if Nat.eqb i j then 1 else 0.
Proof. apply (basis_val nodes bs DN HB). Qed.
Lemma b_interp q t : (length q <= N)%nat -> evaluate q t = rsum N (fun i => evaluate q (x i) * psi i t).
Proof. apply (basis_interp nodes bs DN HB). Qed.
Lemma d_ok j : (j < N)%nat -> differentiate (b j) = Ok (d j) /\ length (d j) = (N - 1)%nat.
Proof.
  intros H. destruct (differentiate_ok (b j)) as [q [E [L _]]]. { intros E. pose proof (b_len j H) as L. rewrite E in L. cbn in L. lia. }
  unfold d, dpoly. fold (b j). rewrite E. rewrite L, (b_len j H). auto.
Qed.
Lemma d_derive j t : (j < N)%nat -> is_derive (psi j) t (dpsi j t).
Proof. intros H. apply derive_eval. apply d_ok. exact H. Qed.

Lemma sum_psi t : rsum N (fun i => psi i t) = 1.
Proof.
  pose proof (b_interp [1] t ltac:(cbn; lia)) as E.
  assert (E1 : forall y, evaluate [1] y = 1) by (intros y; unfold evaluate, co; cbn; ring).
  rewrite E1 in E. rewrite E. apply rsum_ext. intros i Hi. rewrite E1. ring.
Qed.
Lemma sum_dpsi t : rsum N (fun i => dpsi i t) = 0.
Proof.
  pose proof (is_derive_rsum N psi (fun i => dpsi i t) t (fun i Hi => d_derive i t Hi)) as D.
  apply is_derive_unique in D. rewrite <- D. rewrite (Derive_ext _ (fun _ => 1)) by (intros; apply sum_psi). apply Derive_const.
Qed.

(** quadrature of a product with a basis function *)
Lemma quad_node (f : R -> R) i : (i < N)%nat -> quad N x w (fun t => psi i t * f t) = w i * f (x i).
Proof.
  intros Hi. unfold quad. rewrite (rsum_single N i); [rewrite b_node, Nat.eqb_refl by assumption; ring|exact Hi|].
  intros k Hk Nk. rewrite b_node by assumption. destruct (Nat.eqb_spec i k); [congruence|ring].
Qed.
Lemma int_prod p q : (0 < length p + length q <= 2 * N + 1)%nat -> is_RInt (fun t => evaluate p t * evaluate q t) 0 1 (quad N x w (fun t => evaluate p t * evaluate q t)).
Proof.
  intros H. destruct (multiply_ok p q) as [m [E L]]; [lia|].
  assert (Ev : forall t, evaluate m t = evaluate p t * evaluate q t) by (intros t; apply multiply_eval; exact E).
  replace (quad N x w (fun t => evaluate p t * evaluate q t)) with (quad N x w (evaluate m)); [|unfold quad; apply rsum_ext; intros; now rewrite Ev].
  eapply (@is_RInt_ext R_NormedModule); [|apply EX; lia]. intros t _. apply Ev.
Qed.

(** the matrix computed by derivative_products *)
Definition Dmat (bs : list poly) (x w : nat -> R) (i j : nat) : R :=
  if Nat.eqb i j then (evaluate (nth i bs []) 1 ^ 2 - evaluate (nth i bs []) 0 ^ 2) / 2 else w i * evaluate (dpoly bs j) (x i).
Let D := Dmat bs x w.
Lemma derivative_products_ok i j : (j < N)%nat -> derivative_products bs x w i j = Ok (D i j).
Proof.
  intros H. unfold derivative_products, D, Dmat. destruct (Nat.eqb i j); [reflexivity|]. cbn [diff]. fold (b j).
  destruct (d_ok j H) as [E _]. rewrite E. reflexivity.
Qed.
Lemma int_psi_dpsi i j : (i < N)%nat -> (j < N)%nat -> is_RInt (fun t => psi i t * dpsi j t) 0 1 (w i * dpsi j (x i)).
Proof.
  intros Hi Hj. rewrite <- (quad_node (dpsi j) i Hi). apply int_prod. rewrite (b_len i Hi), (proj2 (d_ok j Hj)). lia.
Qed.
Lemma D_w i j : (i < N)%nat -> (j < N)%nat -> D i j = w i * dpsi j (x i).
Proof.
  intros Hi Hj. unfold D, Dmat. destruct (Nat.eqb_spec i j) as [<-|]; [|reflexivity].
  fold (b i). fold (psi i 1) (psi i 0).
  apply (rint_unique (fun t => psi i t * dpsi i t) 0 1); [|apply int_psi_dpsi; assumption].
  replace ((psi i 1 ^ 2 - psi i 0 ^ 2) / 2) with (psi i 1 ^ 2 / 2 - psi i 0 ^ 2 / 2) by lra.
  apply (is_RInt_derive (fun t => psi i t ^ 2 / 2) (fun t => psi i t * dpsi i t)).
  - intros t _. apply (derive_halfsq (psi i)), d_derive. exact Hi.
  - intros t _. apply (continuous_mult (psi i) (dpsi i)); apply continuous_evaluate.
Qed.
Lemma D_int i j : (i < N)%nat -> (j < N)%nat -> is_RInt (fun t => psi i t * dpsi j t) 0 1 (D i j).
Proof. intros Hi Hj. rewrite D_w by assumption. apply int_psi_dpsi; assumption. Qed.

Lemma D_row i : (i < N)%nat -> rsum N (fun j => D i j) = 0.
Proof.
  intros Hi. rewrite (rsum_ext N _ (fun j => w i * dpsi j (x i))) by (intros; apply D_w; assumption).
  rewrite rsum_scal, sum_dpsi. ring.
Qed.
Lemma int_dpoly p q : differentiate p = Ok q -> (length q <= 2 * N)%nat -> quad N x w (evaluate q) = evaluate p 1 - evaluate p 0.
Proof.
  intros E L. apply (rint_unique (evaluate q) 0 1); [apply EX; exact L|].
  apply (is_RInt_derive (evaluate p) (evaluate q)); [intros t _; apply derive_eval; exact E|intros t _; apply continuous_evaluate].
Qed.
Lemma D_col i : (i < N)%nat -> rsum N (fun j => D j i) = psi i 1 - psi i 0.
Proof.
  intros Hi. rewrite (rsum_ext N _ (fun j => w j * dpsi i (x j))) by (intros; apply D_w; assumption).
  apply (int_dpoly (b i) (d i)); [apply d_ok; exact Hi|]. rewrite (proj2 (d_ok i Hi)). lia.
Qed.
Lemma D_sbp i j : (i < N)%nat -> (j < N)%nat -> D i j + D j i = psi i 1 * psi j 1 - psi i 0 * psi j 0.
Proof.
  intros Hi Hj. apply (rint_unique (fun t => psi i t * dpsi j t + psi j t * dpsi i t) 0 1).
  - apply (@is_RInt_plus R_NormedModule (fun t => psi i t * dpsi j t) (fun t => psi j t * dpsi i t)); apply D_int; assumption.
  - apply (is_RInt_derive (fun t => psi i t * psi j t) (fun t => psi i t * dpsi j t + psi j t * dpsi i t)).
    + intros t _. apply (derive_prod (psi i) (psi j)); apply d_derive; assumption.
    + intros t _. apply (continuous_plus (fun t => psi i t * dpsi j t) (fun t => psi j t * dpsi i t));
        apply (continuous_mult (evaluate _) (evaluate _)); apply continuous_evaluate.
Qed.

(** the time operator *)
Definition Mmat (bs : list poly) (x w : nat -> R) (i j : nat) : R := DG_MAT (Dmat bs x w) (end_value_products bs) i j.
Let M := Mmat bs x w.
Lemma M_eq i j : M i j = psi i 1 * psi j 1 - D j i. Proof. reflexivity. Qed.
Lemma M_one i : (i < N)%nat -> rsum N (fun j => M i j) = psi i 0.
Proof.
  intros Hi. rewrite (rsum_ext N _ (fun j => psi i 1 * psi j 1 - D j i)) by reflexivity.
  rewrite rsum_minus, rsum_scal, sum_psi, D_col by exact Hi. ring.
Qed.

Lemma M_inj (v : nat -> R) : (forall i, (i < N)%nat -> rsum N (fun j => M i j * v j) = 0) -> forall j, (j < N)%nat -> v j = 0.
Proof.
  intros H.
  pose (q := psum N (fun j => pscal (v j) (b j))).
  assert (Lq : (length q <= N)%nat) by (apply psum_len; intros i Hi; rewrite pscal_len, b_len by exact Hi; lia).
  assert (Eq : forall t, evaluate q t = rsum N (fun j => v j * psi j t)).
  { intros t. unfold q. rewrite psum_eval. apply rsum_ext. intros i Hi. apply pscal_eval. }
  assert (Nq : forall k, (k < N)%nat -> evaluate q (x k) = v k).
  { intros k Hk. rewrite Eq. rewrite (rsum_single N k); [rewrite b_node, Nat.eqb_refl by assumption; ring|exact Hk|].
    intros i Hi Ne. rewrite b_node by assumption. destruct (Nat.eqb_spec i k); [congruence|ring]. }
  (* row i: the quadrature of psi_i' q is psi_i(1) q(1) *)
  assert (Row : forall i, (i < N)%nat -> rsum N (fun k => w k * v k * dpsi i (x k)) = psi i 1 * evaluate q 1).
  { intros i Hi. specialize (H i Hi). rewrite (rsum_ext N _ (fun j => psi i 1 * (v j * psi j 1) - w j * v j * dpsi i (x j))) in H.
    - rewrite rsum_minus, rsum_scal, <- Eq in H. lra.
    - intros j Hj. rewrite M_eq, D_w by assumption. ring. }
  (* hence for every polynomial of the space *)
  assert (All : forall p p', differentiate p = Ok p' -> (length p <= N)%nat ->
     quad N x w (fun t => evaluate p' t * evaluate q t) = evaluate p 1 * evaluate q 1).
  { intros p p' Ep Lp. unfold quad.
    assert (Dp : forall t, evaluate p' t = rsum N (fun i => evaluate p (x i) * dpsi i t)).
    { intros t. pose proof (is_derive_unique _ _ _ (derive_eval p p' t Ep)) as U. rewrite <- U.
      rewrite (Derive_ext _ (fun t => rsum N (fun i => evaluate p (x i) * psi i t))) by (intros; apply b_interp; exact Lp).
      apply is_derive_unique. apply (is_derive_rsum N (fun i t => evaluate p (x i) * psi i t)). intros i Hi.
      apply (is_derive_scal (psi i) t (evaluate p (x i))). apply d_derive. exact Hi. }
    rewrite (rsum_ext N _ (fun k => rsum N (fun i => evaluate p (x i) * (w k * v k * dpsi i (x k))))).
    - rewrite rsum_swap. rewrite (rsum_ext N _ (fun i => evaluate p (x i) * psi i 1 * evaluate q 1)).
      + rewrite rsum_scal_r. f_equal. symmetry. apply b_interp. exact Lp.
      + intros i Hi. rewrite rsum_scal, Row by exact Hi. ring.
    - intros k Hk. rewrite Nq by exact Hk. rewrite Dp. rewrite <- rsum_scal_r, <- rsum_scal. apply rsum_ext. intros i Hi. ring. }
  assert (q <> []) as Hq0.
  { intros E. unfold q in E. destruct N as [|n] eqn:EN; [lia|]. cbn [psum] in E. apply (f_equal (@length R)) in E.
    rewrite padd_len, pscal_len in E. change (nth n bs []) with (b n) in E.
    assert (length (b n) = N) as L by (apply b_len; lia). rewrite L, EN in E. cbn [length] in E. lia. }
  (* p = q *)
  destruct (differentiate_ok q Hq0) as [q' [Eq' [Lq' _]]].
  assert (S1 : evaluate q 1 * evaluate q 1 = (evaluate q 1 ^ 2 - evaluate q 0 ^ 2) / 2).
  { rewrite <- (All q q' Eq' Lq). apply (rint_unique (fun t => evaluate q' t * evaluate q t) 0 1).
    - apply int_prod. destruct q; [congruence|]. cbn [length] in *. lia.
    - replace ((evaluate q 1 ^ 2 - evaluate q 0 ^ 2) / 2) with (evaluate q 1 ^ 2 / 2 - evaluate q 0 ^ 2 / 2) by lra.
      apply (is_RInt_derive (fun t => evaluate q t ^ 2 / 2) (fun t => evaluate q' t * evaluate q t)).
      + intros t _. rewrite Rmult_comm. apply (derive_halfsq (evaluate q)), derive_eval. exact Eq'.
      + intros t _. apply (continuous_mult (evaluate q') (evaluate q)); apply continuous_evaluate. }
  assert (Q1 : evaluate q 1 = 0) by nra. assert (Q0 : evaluate q 0 = 0) by nra.
  (* q = x r *)
  destruct q as [|c r] eqn:Ecr; [congruence|]. rewrite evaluate_0 in Q0. unfold co in Q0. cbn [nth] in Q0. subst c.
  destruct r as [|r0 r].
  { intros j Hj. rewrite <- Nq by exact Hj. rewrite eval_cons, eval_nil. ring. }
  remember (r0 :: r) as rr.
  destruct (multiply_ok rr rr) as [m [Em Lm]]; [subst rr; cbn; lia|].
  assert (Z : forall t, t * evaluate rr t = 0).
  { apply (weighted_square_zero rr m Em).
    pose proof (All (integrate rr) rr (diff_integrate rr)) as A. rewrite integrate_len in A. specialize (A ltac:(cbn [length] in Lq; lia)).
    rewrite Q1, Rmult_0_r in A. etransitivity; [|exact A].
    assert (I1 : evaluate (integrate (0 :: m)) 1 = evaluate (integrate (0 :: m)) 1 - evaluate (integrate (0 :: m)) 0) by (rewrite integrate_0; ring).
    rewrite I1. rewrite <- (int_dpoly (integrate (0 :: m)) (0 :: m)); [|apply diff_integrate|cbn [length] in *; lia].
    unfold quad. apply rsum_ext. intros k Hk. rewrite !eval_cons, (multiply_eval rr rr m _ Em). ring. }
  intros j Hj. rewrite <- Nq by exact Hj. rewrite eval_cons, Z. ring.
Qed.
(** the weights do not vanish *)
Lemma w_nonzero i : (i < N)%nat -> w i <> 0.
Proof.
  intros Hi W. destruct (multiply_ok (b i) (b i)) as [m [Em Lm]]; [rewrite b_len by exact Hi; lia|].
  assert (Z : forall t, t * psi i t = 0).
  { apply (weighted_square_zero (b i) m Em).
    assert (I : is_RInt (evaluate (0 :: m)) 0 1 (evaluate (integrate (0 :: m)) 1 - evaluate (integrate (0 :: m)) 0)).
    { apply (is_RInt_derive (evaluate (integrate (0 :: m))) (evaluate (0 :: m))); [intros t _; apply integrate_derive|intros t _; apply continuous_evaluate]. }
    rewrite integrate_0, Rminus_0_r in I.
    assert (J : is_RInt (evaluate (0 :: m)) 0 1 (quad N x w (evaluate (0 :: m)))) by (apply EX; cbn [length]; rewrite Lm, !b_len by exact Hi; lia).
    rewrite (rint_unique _ _ _ _ _ I J). unfold quad. apply rsum_zero. intros k Hk. rewrite eval_cons, (multiply_eval _ _ _ _ Em).
    fold (psi i (x k)). rewrite b_node by assumption. destruct (Nat.eqb_spec i k) as [<-|]; [rewrite W|]; ring. }
  assert (P : forall t, psi i t = 0).
  { apply zero_interval. intros t Ht. apply (Rmult_eq_reg_l t); [|lra]. fold (psi i t). rewrite Z. ring. }
  pose proof (b_node i i Hi Hi) as B. rewrite Nat.eqb_refl, P in B. lra.
Qed.

(** the time operator differentiates the identity *)
Lemma M_id i : (2 <= N)%nat -> (i < N)%nat -> rsum N (fun j => M i j * x j) = w i.
Proof.
  intros N2 Hi. rewrite (rsum_ext N _ (fun j => psi i 1 * (x j * psi j 1) - D j i * x j)) by (intros; rewrite M_eq; ring).
  rewrite rsum_minus, rsum_scal.
  assert (E1 : rsum N (fun j => x j * psi j 1) = 1).
  { pose proof (b_interp [0; 1] 1 ltac:(cbn; lia)) as E. assert (V : forall t, evaluate [0; 1] t = t) by (intros t; rewrite !eval_cons; unfold evaluate; cbn; ring).
    rewrite V in E. rewrite E at 1. apply rsum_ext. intros; now rewrite V. }
  rewrite E1. rewrite (rsum_ext N _ (fun j => w j * (x j * dpsi i (x j)))) by (intros; rewrite D_w by assumption; ring).
  destruct (differentiate_ok (0 :: b i)) as [q [Eq [Lq _]]]; [discriminate|].
  assert (Q : forall t, evaluate q t = psi i t + t * dpsi i t).
  { intros t. pose proof (derive_eval _ _ t Eq) as A. apply is_derive_unique in A. rewrite <- A.
    rewrite (Derive_ext _ (fun t => t * psi i t)) by (intros u; rewrite eval_cons; fold (psi i u); change (0 + u * psi i u = u * psi i u); ring).
    pose proof (derive_prod (fun t => t) (psi i) t 1 (dpsi i t) (is_derive_id t) (d_derive i t Hi)) as B. apply is_derive_unique in B.
    etransitivity; [exact B|ring]. }
  pose proof (int_dpoly _ _ Eq ltac:(rewrite Lq; cbn [length]; rewrite b_len by exact Hi; lia)) as I. rewrite !eval_cons in I. fold (psi i 1) (psi i 0) in I.
  unfold quad in I. rewrite (rsum_ext N _ (fun k => w k * psi i (x k) + w k * (x k * dpsi i (x k)))) in I by (intros; rewrite Q; ring).
  rewrite rsum_plus, (rsum_single N i) in I.
  - rewrite b_node, Nat.eqb_refl in I by assumption. lra.
  - exact Hi.
  - intros k Hk Nk. rewrite b_node by assumption. destruct (Nat.eqb_spec i k); [congruence|ring].
Qed.
End B.
