From Coq Require Import Reals Lra Lia.
From Coquelicot Require Import Coquelicot.
From Verif Require Import Base Options Sum PolyModel PolyProof LegendreSpec LegendreProof WenoProof2 DgModel DgSpec DgProof DgProof2 KrylovModel KrylovProof StiffModel.
Import List ListNotations.
Open Scope R_scope.

Section B.
Variables (nodes : list R) (bs : list poly) (w : nat -> R).
Hypothesis DN : distinct nodes.
Hypothesis HB : basis_polys nodes = Ok bs.
Let N := length nodes.
Hypothesis N1 : (1 <= N)%nat.
Let x (k : nat) := nth k nodes 0.
Hypothesis EX : forall p, (length p <= 2 * N)%nat -> is_RInt (evaluate p) 0 1 (quad N x w (evaluate p)).
Let b (j : nat) := nth j bs [].
Let psi (j : nat) (t : R) := evaluate (b j) t.
Let D := Dmat bs x w.
Let M := Mmat bs x w.

(** the polynomial with given nodal values *)
Definition upoly (v : nat -> R) : poly := psum N (fun j => pscal (v j) (b j)).
Lemma upoly_len v : (length (upoly v) <= N)%nat.
Proof. apply psum_len. intros i Hi. rewrite pscal_len. unfold b. rewrite (b_len nodes bs HB i Hi). lia. Qed.
Lemma upoly_eval v t : evaluate (upoly v) t = rsum N (fun j => v j * psi j t).
Proof. unfold upoly. rewrite psum_eval. apply rsum_ext. intros i Hi. apply pscal_eval. Qed.
Lemma upoly_node v k : (k < N)%nat -> evaluate (upoly v) (x k) = v k.
Proof.
  intros Hk. rewrite upoly_eval. rewrite (rsum_single N k); [|exact Hk|].
  - unfold psi, b, x. rewrite (b_node nodes bs DN HB k k Hk Hk), Nat.eqb_refl. ring.
  - intros i Hi Ne. unfold psi, b, x. rewrite (b_node nodes bs DN HB i k Hi Hk). destruct (Nat.eqb_spec i k); [congruence|ring].
Qed.
Lemma upoly_nonempty v : upoly v <> [].
Proof.
  intros E. unfold upoly in E. destruct N as [|n] eqn:EN; [lia|]. cbn [psum] in E. apply (f_equal (@length R)) in E.
  rewrite padd_len, pscal_len in E. unfold b in E. rewrite (b_len nodes bs HB n ltac:(fold N; lia)) in E. fold N in E. rewrite EN in E. cbn [length] in E. lia.
Qed.
Definition dupoly (v : nat -> R) : poly := match differentiate (upoly v) with Ok p => p | _ => [] end.
Lemma dupoly_ok v : differentiate (upoly v) = Ok (dupoly v) /\ (length (dupoly v) + 1 <= N)%nat.
Proof.
  unfold dupoly. destruct (differentiate_ok (upoly v) (upoly_nonempty v)) as [q [E [L _]]]. rewrite E. split; [reflexivity|].
  pose proof (upoly_len v). pose proof (upoly_nonempty v). destruct (upoly v); [congruence|]. cbn [length] in *. lia.
Qed.
Lemma dupoly_derive v t : is_derive (evaluate (upoly v)) t (evaluate (dupoly v) t).
Proof. apply derive_eval. apply dupoly_ok. Qed.
Lemma dupoly_eval v t : evaluate (dupoly v) t = rsum N (fun j => v j * evaluate (dpoly bs j) t).
Proof.
  rewrite <- (is_derive_unique _ _ _ (dupoly_derive v t)).
  rewrite (Derive_ext _ (fun t => rsum N (fun i => v i * psi i t))) by (intros; apply upoly_eval).
  apply is_derive_unique. apply (is_derive_rsum N (fun i t => v i * psi i t)). intros i Hi.
  apply (is_derive_scal (psi i) t (v i)). exact (d_derive nodes bs HB N1 i t Hi).
Qed.

(** a row of the time operator *)
Lemma M_row v i : (i < N)%nat -> rsum N (fun j => M i j * v j) = w i * evaluate (dupoly v) (x i) + psi i 0 * evaluate (upoly v) 0.
Proof.
  intros Hi. rewrite dupoly_eval, upoly_eval. rewrite <- !rsum_scal, <- rsum_plus. apply rsum_ext. intros j Hj.
  assert (S : D i j + D j i = psi i 1 * psi j 1 - psi i 0 * psi j 0) by exact (D_sbp nodes bs w DN HB N1 EX i j Hi Hj).
  assert (W : D i j = w i * evaluate (dpoly bs j) (x i)) by exact (D_w nodes bs w DN HB N1 EX i j Hi Hj).
  change (M i j) with (psi i 1 * psi j 1 - D j i).
  rewrite W in S. replace (psi i 1 * psi j 1 - D j i) with (w i * evaluate (dpoly bs j) (x i) + psi i 0 * psi j 0) by lra. ring.
Qed.
Lemma quad_dupoly v : rsum N (fun i => w i * evaluate (dupoly v) (x i)) = evaluate (upoly v) 1 - evaluate (upoly v) 0.
Proof. destruct (dupoly_ok v) as [E L]. apply (int_dpoly nodes w EX (upoly v) (dupoly v) E). fold N. lia. Qed.
Lemma quad_energy v : rsum N (fun i => v i * (w i * evaluate (dupoly v) (x i))) = (evaluate (upoly v) 1 ^ 2 - evaluate (upoly v) 0 ^ 2) / 2.
Proof.
  destruct (dupoly_ok v) as [E L].
  transitivity (quad N x w (fun t => evaluate (dupoly v) t * evaluate (upoly v) t)).
  { unfold quad. apply rsum_ext. intros k Hk. rewrite upoly_node by exact Hk. ring. }
  apply (rint_unique (fun t => evaluate (dupoly v) t * evaluate (upoly v) t) 0 1).
  - apply (int_prod nodes w N1 EX). pose proof (upoly_len v). pose proof (upoly_nonempty v). destruct (upoly v); [congruence|]. cbn [length] in *. fold N. lia.
  - replace ((evaluate (upoly v) 1 ^ 2 - evaluate (upoly v) 0 ^ 2) / 2) with (evaluate (upoly v) 1 ^ 2 / 2 - evaluate (upoly v) 0 ^ 2 / 2) by lra.
    apply (is_RInt_derive (fun t => evaluate (upoly v) t ^ 2 / 2) (fun t => evaluate (dupoly v) t * evaluate (upoly v) t)).
    + intros t _. rewrite Rmult_comm. apply (derive_halfsq (evaluate (upoly v))), dupoly_derive.
    + intros t _. apply (continuous_mult (evaluate (dupoly v)) (evaluate (upoly v))); apply continuous_evaluate.
Qed.
Lemma w_pos i : (i < N)%nat -> 0 < w i.
Proof.
  intros Hi. pose proof (w_nonzero nodes bs w DN HB N1 EX i Hi) as W.
  assert (G : is_RInt (fun t => psi i t * psi i t) 0 1 (w i)).
  { replace (w i) with (quad N x w (fun t => psi i t * psi i t)).
    - apply (int_prod nodes w N1 EX). rewrite !(b_len nodes bs HB i Hi : length (b i) = _). fold N. lia.
    - pose proof (quad_node nodes bs w DN HB (psi i) i Hi) as Q. etransitivity; [exact Q|]. unfold psi, b. fold x.
      pose proof (b_node nodes bs DN HB i i Hi Hi) as Z. rewrite Nat.eqb_refl in Z. unfold x. etransitivity; [apply f_equal; exact Z|ring]. }
  assert (0 <= w i).
  { rewrite <- (is_RInt_unique _ _ _ _ G). apply RInt_ge_0; [lra|exists (w i); exact G|]. intros t _. nra. }
  lra.
Qed.
(** the energy identity of the time operator *)
Lemma M_energy v v0 : rsum N (fun i => v i * (rsum N (fun j => M i j * v j) - v0 * psi i 0)) =
  (evaluate (upoly v) 1 ^ 2 + (evaluate (upoly v) 0 - v0) ^ 2 - v0 ^ 2) / 2.
Proof.
  rewrite (rsum_ext N _ (fun i => v i * (w i * evaluate (dupoly v) (x i)) + (v i * psi i 0) * (evaluate (upoly v) 0 - v0))).
  - rewrite rsum_plus, quad_energy, rsum_scal_r, <- upoly_eval. lra.
  - intros i Hi. rewrite M_row by exact Hi. ring.
Qed.
Lemma M_sum v : rsum N (fun i => rsum N (fun j => M i j * v j)) = evaluate (upoly v) 1.
Proof.
  rewrite (rsum_ext N _ (fun i => w i * evaluate (dupoly v) (x i) + psi i 0 * evaluate (upoly v) 0)) by (intros i Hi; apply M_row; exact Hi).
  rewrite rsum_plus, quad_dupoly, rsum_scal_r. assert (S : rsum N (fun i => psi i 0) = 1) by exact (sum_psi nodes bs DN HB N1 0). rewrite S. ring.
Qed.
End B.
