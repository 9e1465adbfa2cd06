(** Properties C25, C26: polynomial arithmetic and the Lagrange basis. *)
From Coq Require Import Reals Lra Lia List.
From Coquelicot Require Import Coquelicot.
From Verif Require Import Base Sum PolyModel PolyProof.
Import List ListNotations.
Open Scope R_scope.

(** C25: product, quotient by a scalar, n-fold derivative, antiderivative. *)
Theorem poly_product p q r x : multiply p q = Ok r -> evaluate r x = evaluate p x * evaluate q x.
Proof. exact (multiply_eval p q r x). Qed.
Print Assumptions poly_product.

Theorem poly_scaled p c x : evaluate (pdiv p c) x = evaluate p x / c.
Proof. exact (pdiv_eval p c x). Qed.

Theorem poly_derivative p q : differentiate p = Ok q -> forall x, is_derive (evaluate p) x (evaluate q x).
Proof. intros E x. exact (derive_eval p q x E). Qed.
Print Assumptions poly_derivative.

Theorem poly_nth_derivative n p q : diff n p = Ok q -> forall x, Derive_n (evaluate p) n x = evaluate q x.
Proof. exact (diff_derive n p q). Qed.
Print Assumptions poly_nth_derivative.

(** the antiderivative vanishes at 0, and its increments are the integrals *)
Theorem poly_integral p : evaluate (integrate p) 0 = 0 /\ (forall x, is_derive (evaluate (integrate p)) x (evaluate p x)) /\
  (forall a b, is_RInt (evaluate p) a b (evaluate (integrate p) b - evaluate (integrate p) a)) /\
  differentiate (integrate p) = Ok p.
Proof.
  split; [exact (integrate_0 p)|]. split; [intros x; exact (integrate_derive p x)|].
  split; [intros a b; exact (integrate_RInt p a b)|exact (diff_integrate p)].
Qed.
Print Assumptions poly_integral.

(** when the operations succeed, with the size of the result; the failures are negative vector sizes *)
Theorem poly_success n p q :
  ((0 < length p + length q)%nat <-> exists r, multiply p q = Ok r) /\
  ((n <= length p)%nat <-> exists r, diff n p = Ok r) /\
  (forall r, multiply p q = Ok r -> length r = (length p + length q - 1)%nat) /\
  (forall r, diff n p = Ok r -> length r = (length p - n)%nat).
Proof.
  assert (D : forall m p, (length p < m)%nat -> exists w, diff m p = UB w).
  { clear. induction m as [|m IH]; intros p H; [lia|]. cbn [diff]. destruct p as [|a p].
    - eexists. reflexivity.
    - destruct (differentiate_ok (a :: p)) as [q [E [L _]]]; [discriminate|]. rewrite E. cbn [bind]. apply IH. cbn in *. lia. }
  split; [|split; [|split]].
  - split; [intros H; destruct (multiply_ok p q H) as [r [E _]]; eauto|].
    intros [r E]. destruct p, q; cbn in *; try lia. discriminate.
  - split; [intros H; destruct (diff_ok n p H) as [r [E _]]; eauto|].
    intros [r E]. destruct (le_lt_dec n (length p)) as [L|L]; [exact L|]. destruct (D n p L) as [w W]. congruence.
  - intros r E. destruct (le_lt_dec (length p + length q) 0) as [L|L].
    + destruct p, q; cbn in *; try lia. discriminate.
    + destruct (multiply_ok p q L) as [r' [E' L']]. congruence.
  - intros r E. destruct (le_lt_dec n (length p)) as [L|L].
    + destruct (diff_ok n p L) as [r' [E' L']]. congruence.
    + destruct (D n p L) as [w W]. congruence.
Qed.
Print Assumptions poly_success.

(** C26: on distinct nodes [basis_polys] succeeds with one polynomial of [length nodes] coefficients per node, which
    are 1 at their own node and 0 at the others, sum to one, and reproduce every polynomial of lower degree. *)
Theorem basis_lagrange nodes : distinct nodes ->
  exists b, basis_polys nodes = Ok b /\ length b = length nodes /\
    (forall k, (k < length nodes)%nat -> length (nth k b []) = length nodes) /\
    (forall i j, (i < length nodes)%nat -> (j < length nodes)%nat ->
       evaluate (nth i b []) (nth j nodes 0) = if Nat.eqb i j then 1 else 0) /\
    ((0 < length nodes)%nat -> forall t, rsum (length nodes) (fun i => evaluate (nth i b []) t) = 1) /\
    (forall q t, (length q <= length nodes)%nat ->
       evaluate q t = rsum (length nodes) (fun i => evaluate q (nth i nodes 0) * evaluate (nth i b []) t)).
Proof.
  intros D. destruct (basis_ok nodes) as [b [E [L K]]]. exists b. split; [exact E|]. split; [exact L|].
  assert (I : forall q t, (length q <= length nodes)%nat ->
       evaluate q t = rsum (length nodes) (fun i => evaluate q (nth i nodes 0) * evaluate (nth i b []) t)).
  { intros q t Lq. apply (interpolation nodes (fun i => nth i b []) q D K Lq). }
  split; [|split; [|split; [|exact I]]].
  - intros k Hk. destruct (lagrange_ok nodes k) as [p [Ep [_ Lp]]]. rewrite K in Ep by exact Hk. injection Ep as <-. auto.
  - intros i j Hi Hj. destruct (lagrange_ok nodes i) as [p [Ep [Vp _]]]. rewrite K in Ep by exact Hi. injection Ep as <-.
    rewrite Vp. destruct (Nat.eqb_spec i j) as [<-|N]; [apply lprod_self; auto|apply lprod_other; auto].
  - intros P t. assert (O : forall y, evaluate [1] y = 1) by (intros y; unfold evaluate, co; cbn; ring).
    pose proof (I [1] t ltac:(cbn; lia)) as Q. rewrite O in Q. rewrite Q.
    apply rsum_ext. intros i Hi. rewrite O. ring.
Qed.
Print Assumptions basis_lagrange.

Example basis_hyps : distinct [0; 1 / 2; 1].
Proof.
  intros i j Hi Hj. cbn in Hi, Hj.
  do 3 (destruct i as [|i]; [do 3 (destruct j as [|j]; [cbn; intros; try reflexivity; exfalso; lra|]); lia|]). lia.
Qed.
Example poly_hyps : exists r, multiply [1; 2] [3; 4; 5] = Ok r /\ diff 2 [1; 2; 3] <> UB "x"%string.
Proof. eexists. split; [reflexivity|]. cbn. discriminate. Qed.
