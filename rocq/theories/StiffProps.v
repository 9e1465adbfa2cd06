(** C78: the implicit solver for scalar ordinary differential equations. *)
From Coq Require Import Reals Lra Lia FunctionalExtensionality.
From Coquelicot Require Import Coquelicot.
From Verif Require Import Base Options Sum PolyModel PolyProof LegendreSpec LegendreProof WenoProof2 DgModel DgSpec DgProof DgProof2 DgProps
  KrylovModel KrylovProof KrylovProof2 KrylovProps StiffModel StiffProof.
Import List ListNotations.
Open Scope R_scope.

Section C78.
Variables (nodes : list R) (bs : list poly) (w : nat -> R).
Hypothesis HB : dg_basis nodes bs w.
Let n := length nodes.

(** the residual and the solver, with the tables of globals.cpp *)
Notation residual := (obj0 n w (end_values bs) (Mof nodes bs w)).
Notation solver := (stiff_ode_solve n w (end_values bs) (Mof nodes bs w)).
(** the polynomial with the values [x] at the nodes *)
Definition through (x : nat -> R) (t : R) : R := rsum n (fun j => x j * evaluate (nth j bs []) t).
(** the quadrature of f along it *)
Definition quadrature (f : R -> R) (x : nat -> R) : R := rsum n (fun i => w i * f (x i)).
Definition root (x0 dt : R) (f : R -> R) (x : nat -> R) : Prop := forall i, (i < n)%nat -> residual x0 dt f x i = 0.

Let psi j t := evaluate (nth j bs []) t.
Let up := upoly nodes bs.
Let dup := dupoly nodes bs.
Local Ltac basis := destruct HB as [DN [Hb [N1 EX]]].
Lemma through_up x t : through x t = evaluate (up x) t.
Proof using. unfold up. rewrite upoly_eval. reflexivity. Qed.
Lemma resid x0 dt f x i : (i < n)%nat ->
  residual x0 dt f x i = w i * evaluate (dup x) (nth i nodes 0) + (through x 0 - x0) * psi i 0 - dt * w i * f (x i).
Proof using HB.
  basis. intros Hi. unfold obj0. change (Mof nodes bs w) with (Mmat bs (fun k => nth k nodes 0) w).
  pose proof (M_row nodes bs w DN Hb N1 EX x i Hi) as E. fold n in E. rewrite E. fold up dup. rewrite <- through_up. unfold end_values. cbn [Nat.eqb]. unfold psi. ring.
Qed.
Lemma resid_sum x0 dt f x : rsum n (residual x0 dt f x) = through x 1 - (x0 + dt * quadrature f x).
Proof using HB.
  basis. unfold obj0. rewrite !rsum_minus. change (Mof nodes bs w) with (Mmat bs (fun k => nth k nodes 0) w).
  pose proof (M_sum nodes bs w DN Hb N1 EX x) as E. fold n in E. rewrite E. fold up. rewrite <- through_up. rewrite rsum_scal.
  assert (S : rsum n (end_values bs 0) = 1) by exact (sum_psi nodes bs DN Hb N1 0). change (fun i => end_values bs 0 i) with (end_values bs 0). rewrite S.
  unfold quadrature. rewrite <- rsum_scal. rewrite (rsum_ext n (fun k => dt * w k * f (x k)) (fun k => dt * (w k * f (x k)))) by (intros; ring). ring.
Qed.
Lemma weights_pos i : (i < n)%nat -> 0 < w i.
Proof using HB. basis. exact (w_pos nodes bs w DN Hb N1 EX i). Qed.
Lemma weights_sum : rsum n w = 1.
Proof using HB.
  basis. pose proof (EX [1] ltac:(cbn; lia)) as H. fold n in H. unfold quad in H.
  apply (rint_unique (evaluate [1]) 0 1).
  - replace (rsum n w) with (rsum n (fun k => w k * evaluate [1] (nth k nodes 0))); [exact H|]. apply rsum_ext. intros k Hk. rewrite eval_cons, eval_nil. ring.
  - apply (is_RInt_ext (fun _ => 1)); [intros t _; change (1 = evaluate [1] t); rewrite eval_cons, eval_nil; ring|].
    pose proof (is_RInt_const 0 1 1) as C. unfold scal in C. cbn in C. unfold mult in C. cbn in C. replace ((1 - 0) * 1) with 1 in C by ring. exact C.
Qed.
(** two nodal vectors: the energy identity of their difference *)
Lemma energy x y x0 y0 dt f g : root x0 dt f x -> root y0 dt g y ->
  (through x 1 - through y 1) ^ 2 + (through x 0 - x0 - (through y 0 - y0)) ^ 2 =
  (x0 - y0) ^ 2 + 2 * dt * rsum n (fun i => w i * ((x i - y i) * (f (x i) - g (y i)))).
Proof using HB.
  basis. intros Rx Ry.
  pose proof (M_energy nodes bs w DN Hb N1 EX (fun i => x i - y i) (x0 - y0)) as E. cbv beta in E.
  assert (T : forall t, evaluate (upoly nodes bs (fun i => x i - y i)) t = through x t - through y t).
  { intros t. rewrite upoly_eval. unfold through. rewrite <- rsum_minus. apply rsum_ext. intros. ring. }
  rewrite !T in E.
  fold n in E.
  rewrite (rsum_ext n _ (fun i => dt * (w i * ((x i - y i) * (f (x i) - g (y i)))))) in E.
  - rewrite rsum_scal in E. nra.
  - intros i Hi. specialize (Rx i Hi). specialize (Ry i Hi). unfold obj0 in Rx, Ry. change (Mof nodes bs w) with (Mmat bs (fun k => nth k nodes 0) w) in Rx, Ry.
    unfold end_values in Rx, Ry. cbn [Nat.eqb] in Rx, Ry.
    rewrite (rsum_ext n _ (fun j => Mmat bs (fun k => nth k nodes 0) w i j * x j - Mmat bs (fun k => nth k nodes 0) w i j * y j)) by (intros; ring).
    rewrite rsum_minus.
    replace (dt * (w i * ((x i - y i) * (f (x i) - g (y i))))) with ((x i - y i) * (dt * w i * f (x i) - dt * w i * g (y i))) by ring. f_equal. lra.
Qed.

(** *** What the equations solved are *)
(** The solver returns the value at the end of the step of the polynomial through the last iterate, and has stopped
    either because every component of the residual there is at most the tolerance, or after 3(n+1) iterations. *)
Theorem stiff_returns qr lsolve junk x0 dt f : exists x k, solver qr lsolve junk x0 dt f = Ok (through x 1) /\
  (k <= 3 * (n + 1))%nat /\ ((k < 3 * (n + 1))%nat -> forall i, (i < n)%nat -> Rabs (residual x0 dt f x i) <= f_tol default_tols).
Proof using HB.
  assert (N0 : (0 < n)%nat) by (basis; unfold n; lia).
  destruct (newton_returns_partial n (residual x0 dt f) qr lsolve junk default_tols (fun _ => x0 * 1) N0) as [st [k [E [_ [K C]]]]].
  exists (nx st), k. unfold stiff_ode_solve. rewrite E. cbn [bind]. split; [reflexivity|]. split; [exact K|].
  intros L i Hi. pose proof (maxabs_ub n (residual x0 dt f (nx st)) i Hi) as U. unfold maxnorm in C.
  assert (0 < f_tol default_tols) by (cbn; apply exp_pos).
  destruct (C L) as [Z|[Z _]]; lra.
Qed.
(** A root of the residual is exactly a discontinuous Galerkin solution of x' = dt f(x), x(0) = x0 on [0,1]: tested with
    every polynomial of the space, the derivative plus the jump at the start equal the quadrature of the right-hand side. *)
Theorem stiff_galerkin x0 dt f x : root x0 dt f x <-> forall v, (length v <= n)%nat ->
  is_RInt (fun t => Derive (through x) t * evaluate v t) 0 1
    (dt * rsum n (fun i => w i * f (through x (nth i nodes 0)) * evaluate v (nth i nodes 0)) - (through x 0 - x0) * evaluate v 0).
Proof using HB.
  basis. fold n in N1.
  assert (Nd : forall i, (i < n)%nat -> through x (nth i nodes 0) = x i).
  { intros i Hi. rewrite through_up. exact (upoly_node nodes bs DN Hb x i Hi). }
  assert (Dv : forall t, Derive (through x) t = evaluate (dup x) t).
  { intros t. rewrite (Derive_ext (through x) (evaluate (up x))) by (intros; apply through_up). apply is_derive_unique. exact (dupoly_derive nodes bs w Hb N1 EX x t). }
  assert (Int : forall v, (length v <= n)%nat -> is_RInt (fun t => Derive (through x) t * evaluate v t) 0 1 (rsum n (fun i => w i * evaluate (dup x) (nth i nodes 0) * evaluate v (nth i nodes 0)))).
  { intros v Lv. apply (is_RInt_ext (fun t => evaluate (dup x) t * evaluate v t)); [intros t _; rewrite Dv; reflexivity|].
    destruct (dupoly_ok nodes bs w Hb N1 EX x) as [_ Ld].
    destruct (Nat.eq_dec (length (dup x) + length v) 0) as [Z|Z].
    - assert (dup x = []) as -> by (destruct (dup x); [reflexivity|cbn in Z; lia]).
      apply (is_RInt_ext (fun _ => 0)); [intros t _; change (0 = evaluate [] t * evaluate v t); rewrite eval_nil; ring|].
      replace (rsum n _) with 0; [|symmetry; rewrite (rsum_ext n _ (fun _ => 0)); [apply rsum_zero; reflexivity|intros; rewrite eval_nil; ring]].
      pose proof (is_RInt_const 0 1 0) as C. unfold scal in C. cbn in C. unfold mult in C. cbn in C. replace ((1 - 0) * 0) with 0 in C by ring. exact C.
    - pose proof (int_prod nodes w N1 EX (dup x) v) as I. unfold quad in I. fold n in I.
      rewrite (rsum_ext n _ (fun k => w k * (evaluate (dup x) (nth k nodes 0) * evaluate v (nth k nodes 0)))) by (intros; ring).
      apply I. fold dup in Ld. fold n in Ld. lia. }
  split.
  - intros Rt v Lv. replace (dt * _ - _) with (rsum n (fun i => w i * evaluate (dup x) (nth i nodes 0) * evaluate v (nth i nodes 0))); [apply Int, Lv|].
    assert (V0 : evaluate v 0 = rsum n (fun i => evaluate v (nth i nodes 0) * psi i 0)) by exact (b_interp nodes bs DN Hb v 0 Lv).
    rewrite V0, <- !rsum_scal, <- rsum_minus. apply rsum_ext. intros i Hi. specialize (Rt i Hi). rewrite resid in Rt by exact Hi. rewrite Nd by exact Hi.
    replace (w i * evaluate (dup x) (nth i nodes 0)) with (dt * w i * f (x i) - (through x 0 - x0) * psi i 0) by lra. ring.
  - intros G i Hi. pose proof (b_len nodes bs Hb i Hi) as Li. specialize (G (nth i bs []) ltac:(unfold n in *; lia)).
    pose proof (rint_unique _ _ _ _ _ G (Int (nth i bs []) ltac:(unfold n in *; lia))) as U.
    assert (Bn : forall k, (k < n)%nat -> evaluate (nth i bs []) (nth k nodes 0) = if Nat.eqb i k then 1 else 0) by (intros k Hk; exact (b_node nodes bs DN Hb i k Hi Hk)).
    rewrite (rsum_single n i) in U; [|exact Hi|intros k Hk Ne; rewrite Bn by exact Hk; destruct (Nat.eqb_spec i k); [congruence|ring]].
    rewrite (rsum_single n i) in U; [|exact Hi|intros k Hk Ne; rewrite Bn by exact Hk; destruct (Nat.eqb_spec i k); [congruence|ring]].
    rewrite Bn, Nat.eqb_refl, Nd in U by exact Hi. rewrite resid by exact Hi. unfold psi. lra.
Qed.

(** *** Balance *)
(** What is returned is the starting value plus the step times a weighted mean of the rates at the nodes, up to the sum
    of the residuals. *)
Theorem stiff_balance x0 dt f x : through x 1 = x0 + dt * quadrature f x + rsum n (residual x0 dt f x).
Proof using HB. rewrite resid_sum. ring. Qed.
(** Hence rates between two bounds move a solution at a speed between them, and a constant rate is integrated exactly. *)
Theorem stiff_bounds x0 dt f x lo hi : 0 <= dt -> root x0 dt f x -> (forall i, (i < n)%nat -> lo <= f (x i) <= hi) ->
  x0 + dt * lo <= through x 1 <= x0 + dt * hi.
Proof using HB.
  intros Hd Rt Hf. rewrite (stiff_balance x0 dt f x). rewrite (rsum_ext n (residual x0 dt f x) (fun _ => 0)) by exact Rt. rewrite (rsum_zero n (fun _ => 0)) by reflexivity.
  assert (lo <= quadrature f x <= hi).
  { unfold quadrature. replace lo with (rsum n (fun i => w i * lo)) by (rewrite rsum_scal_r, weights_sum; ring). replace hi with (rsum n (fun i => w i * hi)) by (rewrite rsum_scal_r, weights_sum; ring).
    split; apply rsum_le; intros i Hi; pose proof (weights_pos i Hi); specialize (Hf i Hi); nra. }
  nra.
Qed.
(** A value at which the rate vanishes is returned unchanged, whatever the step and the decompositions. *)
Theorem stiff_equilibrium qr lsolve junk x0 dt f : f x0 = 0 -> solver qr lsolve junk x0 dt f = Ok x0.
Proof using HB.
  intros F0.
  assert (T : forall t, through (fun _ => x0 * 1) t = x0).
  { intros t. basis. unfold through. rewrite rsum_scal. assert (S : rsum n (fun i => psi i t) = 1) by exact (sum_psi nodes bs DN Hb N1 t). unfold psi in S. rewrite S. ring. }
  destruct (newton_at_root n (residual x0 dt f) qr lsolve junk default_tols (fun _ => x0 * 1)) as [st [E X]].
  - apply maxabs_zero. intros i Hi. unfold obj0. rewrite rsum_scal_r. basis. change (Mof nodes bs w) with (Mmat bs (fun k => nth k nodes 0) w).
    assert (S : rsum n (fun j => Mmat bs (fun k => nth k nodes 0) w i j) = evaluate (nth i bs []) 0) by exact (M_one nodes bs w DN Hb N1 EX i Hi).
    match goal with |- context [rsum n ?g] => replace (rsum n g) with (evaluate (nth i bs []) 0) by (symmetry; exact S) end. replace (x0 * 1) with x0 by ring. rewrite F0. unfold end_values. cbn [Nat.eqb]. ring.
  - unfold stiff_ode_solve. rewrite E. cbn [bind]. rewrite X. f_equal. exact (T 1).
Qed.

(** *** Unconditional stability *)
(** For every step size: if the rate never points away from zero, the solution does not grow; *)
Theorem stiff_stable x0 dt f x : 0 <= dt -> (forall a, a * f a <= 0) -> root x0 dt f x -> Rabs (through x 1) <= Rabs x0.
Proof using HB.
  intros Hd Hf Rt. assert (R0 : root 0 dt (fun _ => 0) (fun _ => 0)).
  { intros i Hi. unfold obj0. rewrite (rsum_ext n _ (fun _ => 0)) by (intros; ring). rewrite (rsum_zero n (fun _ => 0)) by reflexivity. ring. }
  pose proof (energy x (fun _ => 0) x0 0 dt f (fun _ => 0) Rt R0) as E. cbv beta in E.
  assert (Z : forall t, through (fun _ => 0) t = 0).
  { intros t. unfold through. rewrite (rsum_ext n _ (fun _ => 0)) by (intros; ring). apply rsum_zero. reflexivity. }
  rewrite !Z in E.
  assert (S : rsum n (fun i => w i * ((x i - 0) * (f (x i) - 0))) <= 0).
  { eapply Rle_trans; [apply (rsum_le n _ (fun _ => 0))|rewrite rsum_zero by reflexivity; lra]. intros i Hi. pose proof (weights_pos i Hi). specialize (Hf (x i)). cbv beta. replace (w i * ((x i - 0) * (f (x i) - 0))) with (w i * (x i * f (x i))) by ring. nra. }
  apply Rsqr_le_abs_0. unfold Rsqr. match type of E with _ = _ + 2 * dt * ?s => assert (dt * s <= 0) by nra end. match type of E with ?a ^ 2 + ?b ^ 2 = _ => pose proof (pow2_ge_0 b) end. nra.
Qed.
(** if the rate is decreasing, two solutions do not move apart; *)
Theorem stiff_contractive x0 y0 dt f x y : 0 <= dt -> (forall a b, (a - b) * (f a - f b) <= 0) ->
  root x0 dt f x -> root y0 dt f y -> Rabs (through x 1 - through y 1) <= Rabs (x0 - y0).
Proof using HB.
  intros Hd Hf Rx Ry. pose proof (energy x y x0 y0 dt f f Rx Ry) as E.
  assert (S : rsum n (fun i => w i * ((x i - y i) * (f (x i) - f (y i)))) <= 0).
  { eapply Rle_trans; [apply (rsum_le n _ (fun _ => 0))|rewrite rsum_zero by reflexivity; lra]. intros i Hi. pose proof (weights_pos i Hi). specialize (Hf (x i) (y i)). nra. }
  apply Rsqr_le_abs_0. unfold Rsqr. match type of E with _ = _ + 2 * dt * ?s => assert (dt * s <= 0) by nra end. match type of E with ?a ^ 2 + ?b ^ 2 = _ => pose proof (pow2_ge_0 b) end. nra.
Qed.
(** and if it is strictly decreasing there is at most one solution. *)
Theorem stiff_unique x0 dt f x y : 0 < dt -> (forall a b, a < b -> f b < f a) ->
  root x0 dt f x -> root x0 dt f y -> forall i, (i < n)%nat -> x i = y i.
Proof using HB.
  intros Hd Hf Rx Ry. pose proof (energy x y x0 x0 dt f f Rx Ry) as E.
  assert (Tm : forall i, (i < n)%nat -> w i * ((x i - y i) * (f (x i) - f (y i))) <= 0 /\ (x i <> y i -> w i * ((x i - y i) * (f (x i) - f (y i))) < 0)).
  { intros i Hi. pose proof (weights_pos i Hi). destruct (Rtotal_order (x i) (y i)) as [L|[L|L]].
    - pose proof (Hf _ _ L). assert ((x i - y i) * (f (x i) - f (y i)) < 0) by nra. split; [|intros _]; nra.
    - rewrite L. split; [|congruence]. nra.
    - pose proof (Hf _ _ L). assert ((x i - y i) * (f (x i) - f (y i)) < 0) by nra. split; [|intros _]; nra. }
  intros i Hi. destruct (Req_dec (x i) (y i)) as [Q|Q]; [exact Q|exfalso].
  assert (S : rsum n (fun i => w i * ((x i - y i) * (f (x i) - f (y i)))) < 0).
  { destruct (Tm i Hi) as [_ Lt]. specialize (Lt Q).
    pose proof (rsum_le n (fun k => w k * ((x k - y k) * (f (x k) - f (y k)))) (fun k => if Nat.eqb k i then w i * ((x i - y i) * (f (x i) - f (y i))) else 0)) as Le.
    rewrite (rsum_single n i (fun k => if Nat.eqb k i then _ else 0)) in Le; [|exact Hi|intros k Hk Ne; destruct (Nat.eqb_spec k i); [congruence|reflexivity]].
    rewrite Nat.eqb_refl in Le. eapply Rle_lt_trans; [apply Le|exact Lt]. intros k Hk. destruct (Nat.eqb_spec k i) as [->|]; [lra|]. apply (Tm k Hk). }
  replace (x0 - x0) with 0 in E by ring. match type of E with ?a ^ 2 + ?b ^ 2 = _ + 2 * dt * ?s => assert (dt * s < 0) by nra; pose proof (pow2_ge_0 b); pose proof (pow2_ge_0 a) end. nra.
Qed.
End C78.
Print Assumptions stiff_returns.
Print Assumptions stiff_galerkin.
Print Assumptions stiff_balance.
Print Assumptions stiff_bounds.
Print Assumptions stiff_equilibrium.
Print Assumptions stiff_stable.
Print Assumptions stiff_contractive.
Print Assumptions stiff_unique.

(** with the two-point rule the equation x' = -x, x(0) = 1 has a solution for a step of length 1: the hypotheses of the
    theorems above hold for it *)
Example stiff_case : exists nodes bs w x, dg_basis nodes bs w /\ length nodes = 2%nat /\ root nodes bs w 1 1 (fun a => - a) x /\
  (forall a, a * (- a) <= 0) /\ (forall a b, (a - b) * (- a - - b) <= 0) /\ (forall a b, a < b -> - b < - a).
Proof.
  destruct two_node_basis as [p [q [bs [w [G _]]]]]. exists [p; q], bs, w.
  assert (K : exists x, root [p; q] bs w 1 1 (fun a => - a) x).
  2:{ destruct K as [x Rx]. exists x. split; [exact G|]. split; [reflexivity|]. split; [exact Rx|]. split; [intros a; pose proof (pow2_ge_0 a); nra|]. split; [intros a b; pose proof (pow2_ge_0 (a - b)); nra|intros; lra]. }
  set (M := Mof [p; q] bs w). set (e := end_values bs 0).
  assert (Rt : forall v y, root [p; q] bs w v 1 (fun a => - a) y <->
    (M 0%nat 0%nat + w 0%nat) * y 0%nat + M 0%nat 1%nat * y 1%nat = v * e 0%nat /\ M 1%nat 0%nat * y 0%nat + (M 1%nat 1%nat + w 1%nat) * y 1%nat = v * e 1%nat).
  { intros v y. unfold root, obj0. cbn [length]. split.
    - intros H. pose proof (H 0%nat ltac:(lia)) as H0. pose proof (H 1%nat ltac:(lia)) as H1. cbn [rsum] in H0, H1. fold M e in H0, H1. split; lra.
    - intros [H0 H1] i Hi. destruct i as [|[|i]]; [| |lia]; cbn [rsum]; fold M e; lra. }
  assert (Inj : forall y, root [p; q] bs w 0 1 (fun a => - a) y -> y 0%nat = 0 /\ y 1%nat = 0).
  { intros y Ry. assert (Z : root [p; q] bs w 0 1 (fun a => - a) (fun _ => 0)) by (apply Rt; split; ring).
    pose proof (stiff_unique [p; q] bs w G 0 1 (fun a => - a) y (fun _ => 0) ltac:(lra) ltac:(intros; lra) Ry Z) as U. split; apply U; cbn; lia. }
  set (a := M 0%nat 0%nat + w 0%nat) in *. set (b := M 0%nat 1%nat) in *. set (c := M 1%nat 0%nat) in *. set (d := M 1%nat 1%nat + w 1%nat) in *.
  assert (Det : a * d - b * c <> 0).
  { intros Z.
    destruct (Inj (fun i => match i with O => - b | _ => a end)) as [B A]; [apply Rt; split; lra|].
    destruct (Inj (fun i => match i with O => d | _ => - c end)) as [D C]; [apply Rt; split; lra|].
    destruct (Inj (fun i => match i with O => 1 | _ => 0 end)) as [O _]; [apply Rt; split; nra|]. lra. }
  exists (fun i => match i with O => (d * e 0%nat - b * e 1%nat) / (a * d - b * c) | _ => (a * e 1%nat - c * e 0%nat) / (a * d - b * c) end).
  apply Rt. split; field; exact Det.
Qed.
