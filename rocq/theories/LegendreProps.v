(** Properties C27, C28: Legendre series and Gauss-Legendre data. *)
From Coq Require Import Reals Lra Lia List.
From Coquelicot Require Import Coquelicot.
From Verif Require Import Base Sum PolyModel PolyProof LegendreModel LegendreSpec LegendreProof LegendreProof2 LegendreProof3.
Import List ListNotations.
Open Scope R_scope.

(** C27 *)
Theorem legval_correct c x : c <> [] -> legval x c = Ok (series c x).
Proof. exact (legval_ok c x). Qed.
Print Assumptions legval_correct.

Theorem legder_correct c : (2 <= length c)%nat ->
  exists d, legder c = Ok d /\ length d = (length c - 1)%nat /\ forall x, is_derive (series c) x (series d x).
Proof. exact (legder_ok c). Qed.
Print Assumptions legder_correct.

(** outside these sizes the functions read out of range *)
Theorem legendre_small : (forall x, exists w, legval x [] = UB w) /\ (forall c, (length c < 2)%nat -> exists w, legder c = UB w).
Proof. split; [intros x; eexists; reflexivity|exact legder_ub]. Qed.

Example legval_hyps : [1; 2; 3; 4; 5] <> [] /\ (2 <= length [1; 2; 3; 4; 5])%nat.
Proof. split; [discriminate|cbn; lia]. Qed.

(** C28. The companion matrix: its eigenvalues are the roots of L_n. *)
Theorem gauss_companion n x : (0 < n)%nat -> eigenvalue n (legcompanion n) x <-> L n x = 0.
Proof. exact (companion_roots n x). Qed.
Print Assumptions gauss_companion.

(** With the exact eigenvalues in increasing order (Eigen's order) the nodes are returned unchanged, nodes and weights
    are symmetric, the weights are positive with sum 2, and the rule is exact for every polynomial with at most
    2 deg coefficients, on [-1,1] and, scaled, on [0,1]; [P] is the packet size of the vectorised assignment. *)
Theorem gauss_exact_rule P deg eig : (1 <= deg)%nat ->
  (forall k, (k < deg)%nat -> eigenvalue deg (legcompanion deg) (eig k)) ->
  (forall i j, (i < j < deg)%nat -> eig i < eig j) ->
  exists x w, leggauss P deg eig = Ok (x, w) /\
    (forall k, (k < deg)%nat -> x k = eig k /\ x (deg - 1 - k)%nat = - x k /\ w (deg - 1 - k)%nat = w k /\ 0 < w k) /\
    rsum deg w = 2 /\
    (forall p, (length p <= 2 * deg)%nat -> is_RInt (evaluate p) (-1) 1 (quad deg x w (evaluate p))) /\
    (forall p, (length p <= 2 * deg)%nat -> is_RInt (evaluate p) 0 1 (quad deg (scaled_nodes x) (scaled_weights w) (evaluate p))).
Proof.
  intros Hd Ev In. destruct deg as [|m]; [lia|].
  assert (Rt : forall k, (k < S m)%nat -> L (S m) (eig k) = 0) by (intros k Hk; apply companion_roots; [lia|auto]).
  assert (Ds : forall i j, (i < S m)%nat -> (j < S m)%nat -> eig i = eig j -> i = j).
  { intros i j Hi Hj E. destruct (lt_eq_lt_dec i j) as [[Q|Q]|Q]; [|exact Q|]; [pose proof (In i j ltac:(lia))|pose proof (In j i ltac:(lia))]; lra. }
  destruct (leggauss_exact P m eig Rt In) as [x [w [E XW]]]. pose proof (roots_antisym m eig Rt In) as An.
  exists x, w. split; [exact E|].
  assert (Ex : forall p, (length p <= 2 * S m)%nat -> is_RInt (evaluate p) (-1) 1 (quad (S m) x w (evaluate p))).
  { intros p Lp. pose proof (gauss_exact m eig Rt Ds p Lp) as I. unfold quad in *.
    rewrite (rsum_ext (S m) (fun k => w k * evaluate p (x k)) (fun k => 2 / K (S m) (eig k) (eig k) * evaluate p (eig k))); [exact I|].
    intros k Hk. destruct (XW k Hk) as [-> ->]. reflexivity. }
  split; [|split; [|split; [exact Ex|]]].
  - intros k Hk. destruct (XW k Hk) as [Xk Wk]. destruct (XW (S m - 1 - k)%nat ltac:(lia)) as [Xr Wr].
    replace (S m - 1 - k)%nat with (m - k)%nat in * by lia. rewrite Xr, Wr, Xk, Wk. pose proof (An k Hk) as A.
    split; [reflexivity|]. split; [lra|]. split.
    + replace (eig (m - k)%nat) with (- eig k) by lra. rewrite K_even. reflexivity.
    + pose proof (K_pos m (eig k)). apply Rdiv_lt_0_compat; lra.
  - rewrite (rsum_ext (S m) w (fun k => 2 / K (S m) (eig k) (eig k))); [apply (gauss_sum m eig Rt Ds)|].
    intros k Hk. apply (XW k Hk).
  - intros p Lp. apply quad_scaled. intros q Lq. apply Ex. lia.
Qed.
Print Assumptions gauss_exact_rule.

Example gauss_hyps : (forall k, (k < 2)%nat -> eigenvalue 2 (legcompanion 2) ((fun k => if Nat.eqb k 0 then - sqrt (/ 3) else sqrt (/ 3)) k)) /\
  (forall i j, (i < j < 2)%nat -> (if Nat.eqb i 0 then - sqrt (/ 3) else sqrt (/ 3)) < (if Nat.eqb j 0 then - sqrt (/ 3) else sqrt (/ 3))).
Proof.
  assert (P : 0 < sqrt (/ 3)) by (apply sqrt_lt_R0; lra).
  assert (Q : sqrt (/ 3) * sqrt (/ 3) = / 3) by (apply sqrt_sqrt; lra).
  split.
  - intros k Hk. apply companion_roots; [lia|]. rewrite LSS', L1, L0. cbn [Nat.mul Nat.add INR].
    destruct k as [|[|k]]; [| |lia]; cbn [Nat.eqb]; field_simplify; rewrite <- ?Rsqr_pow2; unfold Rsqr; nra.
  - intros i j H. assert (i = 0%nat) as -> by lia. assert (j = 1%nat) as -> by lia. cbn. lra.
Qed.

(** Whatever the solver returns, the weights sum to 2 (when their sum can be scaled at all, i.e. is not 0), and nodes and
    weights keep the symmetry of the solver's output. Missing: symmetry for every solver output, refuted below. *)
Theorem gauss_symmetry_partial P deg eig x w : (1 <= deg)%nat -> leggauss P deg eig = Ok (x, w) ->
  (rsum deg w <> 0 -> rsum deg w = 2) /\
  ((forall k, (k < deg)%nat -> eig (deg - 1 - k)%nat = - eig k) ->
   forall k, (k < deg)%nat -> x (deg - 1 - k)%nat = - x k /\ w (deg - 1 - k)%nat = w k).
Proof. intros Hd E. split; [exact (leggauss_weights_sum P deg eig x w Hd E)|exact (leggauss_sym P deg eig x w Hd E)]. Qed.
Print Assumptions gauss_symmetry_partial.

(** The symmetrisation reads coefficients it has already overwritten: from the slightly asymmetric eigenvalues
    (-1, 0, 1/2) it returns nodes that are not antisymmetric, with scalar and with two-lane evaluation, although no
    quotient is singular. *)
Theorem gauss_symmetry_refuted : exists eig, (forall i, (i < 3)%nat -> Derive (L 3) (eig i) <> 0) /\
  forall P, P = 1%nat \/ P = 2%nat -> exists x w, leggauss P 3 eig = Ok (x, w) /\ x 2%nat <> - x 0%nat.
Proof. exact gauss_asym. Qed.
Print Assumptions gauss_symmetry_refuted.
