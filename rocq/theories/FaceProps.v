(** C82: the values of a cell at its faces, and its slopes at its nodes, are those of the polynomial through its nodal values. *)
From Coq Require Import Reals Lia Lra ZArith.
From Coquelicot Require Import Coquelicot.
From Verif Require Import Base Options Sum PolyModel PolyProof WenoProof WenoProof3 FvModel FvBody LegendreSpec DgSpec DgProof2 DgProps.
Import List ListNotations.
Open Scope R_scope.

(** the polynomials with values [q] at the nodes: sum of q_a psi_a(x), and of q_{aN+b} psi_a(x) psi_b(y) *)
Definition interp1 (n : nat) (bs : list poly) (q : nodal) (x : R) (k : nat) : R := rsum n (fun a => q a k * evaluate (nth a bs []) x).
Definition interp2 (n : nat) (bs : list poly) (q : nodal) (x y : R) (k : nat) : R :=
  rsum n (fun a => rsum n (fun b => q (a * n + b)%nat k * evaluate (nth a bs []) x * evaluate (nth b bs []) y)).
(** the two ends of a cell *)
Definition side (e : nat) : R := match e with O => 0 | _ => 1 end.

Section F.
Variables (o : options) (nodes : list R) (bs : list poly).
Hypothesis HN : length nodes = N o.
Hypothesis DN : distinct nodes.
Hypothesis HB : basis_polys nodes = Ok bs.
Notation xi s := (nth s nodes 0).
Notation psi a x := (evaluate (nth a bs []) x).

Lemma node_val i j : (i < N o)%nat -> (j < N o)%nat -> psi i (xi j) = if Nat.eqb i j then 1 else 0.
Proof. intros Hi Hj. apply (b_node nodes bs DN HB); rewrite HN; assumption. Qed.
Lemma pick (f : nat -> R) b : (b < N o)%nat -> rsum (N o) (fun j => f j * psi j (xi b)) = f b.
Proof.
  intros Hb. rewrite (rsum_single (N o) b) by (try exact Hb; intros j Hj D; rewrite node_val by assumption; apply Nat.eqb_neq in D; rewrite D; ring).
  rewrite node_val, Nat.eqb_refl by exact Hb. ring.
Qed.

(** these polynomials pass through the nodal values *)
Theorem interp_nodes_1d q a k : (a < N o)%nat -> interp1 (N o) bs q (xi a) k = q a k.
Proof. intros Ha. unfold interp1. apply (pick (fun j => q j k)), Ha. Qed.
Theorem interp_nodes_2d q a b k : (a < N o)%nat -> (b < N o)%nat -> interp2 (N o) bs q (xi a) (xi b) k = q (a * N o + b)%nat k.
Proof.
  intros Ha Hb. unfold interp2. rewrite (rsum_ext (N o) _ (fun i => q (i * N o + b)%nat k * psi i (xi a))).
  - apply (pick (fun i => q (i * N o + b)%nat k)), Ha.
  - intros i Hi. apply (pick (fun j => q (i * N o + j)%nat k * psi i (xi a))), Hb.
Qed.

Theorem face_values_1d q e k : endpts1d o (end_values bs) q e k = interp1 (N o) bs q (side e) k.
Proof. unfold endpts1d, interp1, end_values, side. apply rsum_ext. intros r Hr. destruct e; cbn [Nat.eqb]; ring. Qed.
(** direction 0: the face x = side e, at the node s in y; direction 1: the face y = side e, at the node s in x *)
Theorem face_values_2d q e s k : (s < N o)%nat ->
  endpts2d o (end_values bs) q 0 e s k = interp2 (N o) bs q (side e) (xi s) k /\
  endpts2d o (end_values bs) q 1 e s k = interp2 (N o) bs q (xi s) (side e) k.
Proof.
  intros Hs. unfold endpts2d, interp2, end_values. split.
  - apply rsum_ext. intros r Hr. rewrite (pick (fun j => q (r * N o + j)%nat k * psi r (side e))) by exact Hs. destruct e; cbn [Nat.eqb side]; ring.
  - rewrite (rsum_ext (N o) (fun a => rsum _ _) (fun a => rsum (N o) (fun b => q (a * N o + b)%nat k * psi b (side e)) * psi a (xi s))).
    + rewrite (pick (fun a => rsum (N o) (fun b => q (a * N o + b)%nat k * psi b (side e)))) by exact Hs. apply rsum_ext. intros r Hr. destruct e; cbn [Nat.eqb side]; ring.
    + intros a Ha. rewrite <- rsum_scal_r. apply rsum_ext. intros; ring.
Qed.

Lemma psi_derive a x : (a < N o)%nat -> is_derive (fun t => psi a t) x (evaluate (dpoly bs a) x).
Proof. intros Ha. apply (d_derive nodes bs HB); rewrite HN; lia. Qed.

Theorem slopes_1d q s k : (s < N o)%nat -> is_derive (fun x => interp1 (N o) bs q x k) (xi s) (derivs1d o (Dv bs nodes) q s k).
Proof.
  intros Hs. unfold interp1, derivs1d, Dv.
  rewrite (rsum_ext (N o) (fun r => evaluate (dpoly bs r) (xi s) * q r k) (fun r => q r k * evaluate (dpoly bs r) (xi s))) by (intros; ring).
  apply is_derive_rsum. intros a Ha. apply (is_derive_scal (fun t => psi a t)). apply psi_derive, Ha.
Qed.
Theorem slopes_2d q a b k : (a < N o)%nat -> (b < N o)%nat ->
  is_derive (fun x => interp2 (N o) bs q x (xi b) k) (xi a) (derivs2d o (Dv bs nodes) q 0 (a * N o + b)%nat k) /\
  is_derive (fun y => interp2 (N o) bs q (xi a) y k) (xi b) (derivs2d o (Dv bs nodes) q 1 (a * N o + b)%nat k).
Proof.
  intros Ha Hb. unfold derivs2d. cbv zeta. destruct (divmod (N o) a b Hb) as [-> ->]. unfold Dv. split.
  - apply (is_derive_ext (fun x => rsum (N o) (fun i => q (i * N o + b)%nat k * psi i x))).
    { intros x. unfold interp2. apply rsum_ext. intros i Hi. symmetry. apply (pick (fun j => q (i * N o + j)%nat k * psi i x)), Hb. }
    rewrite (rsum_ext (N o) (fun r => evaluate (dpoly bs r) (xi a) * _) (fun r => q (r * N o + b)%nat k * evaluate (dpoly bs r) (xi a))) by (intros; ring).
    apply is_derive_rsum. intros i Hi. apply (is_derive_scal (fun t => psi i t)). apply psi_derive, Hi.
  - apply (is_derive_ext (fun y => rsum (N o) (fun j => q (a * N o + j)%nat k * psi j y))).
    { intros y. unfold interp2. rewrite (rsum_ext (N o) (fun i => rsum _ _) (fun i => rsum (N o) (fun j => q (i * N o + j)%nat k * psi j y) * psi i (xi a))).
      - symmetry. apply (pick (fun i => rsum (N o) (fun j => q (i * N o + j)%nat k * psi j y))), Ha.
      - intros i Hi. rewrite <- rsum_scal_r. apply rsum_ext. intros; ring. }
    rewrite (rsum_ext (N o) (fun r => evaluate (dpoly bs r) (xi b) * _) (fun r => q (a * N o + r)%nat k * evaluate (dpoly bs r) (xi b))) by (intros; ring).
    apply is_derive_rsum. intros i Hi. apply (is_derive_scal (fun t => psi i t)). apply psi_derive, Hi.
Qed.
End F.
Print Assumptions interp_nodes_1d.
Print Assumptions interp_nodes_2d.
Print Assumptions face_values_1d.
Print Assumptions face_values_2d.
Print Assumptions slopes_1d.
Print Assumptions slopes_2d.

(** a basis with two nodes, and a polynomial that is not symmetric in x and y: x at the right face is 1, y is the node *)
Example face_case : exists nodes bs, length nodes = N shipped /\ distinct nodes /\ basis_polys nodes = Ok bs /\
  let q : nodal := fun s _ => nth (s / 2) nodes 0 in
  endpts2d shipped (end_values bs) q 0%nat 1%nat 0%nat 0%nat = 1 /\ endpts2d shipped (end_values bs) q 1%nat 1%nat 0%nat 0%nat = nth 0 nodes 0 /\ nth 0 nodes 0 <> 1.
Proof.
  destruct (basis_ok [1 / 4; 3 / 4]) as [bs [B _]]. assert (D : distinct [1 / 4; 3 / 4]).
  { intros i j Hi Hj. cbn in Hi, Hj. destruct i as [|[|i]], j as [|[|j]]; try lia; cbn; lra. }
  exists [1 / 4; 3 / 4], bs. split; [reflexivity|]. split; [exact D|]. split; [exact B|]. cbv zeta.
  assert (S : forall x, evaluate (nth 0 bs []) x + evaluate (nth 1 bs []) x = 1).
  { intros x. assert (E := sum_psi [1 / 4; 3 / 4] bs D B ltac:(cbn; lia) x). cbn [length rsum] in E. lra. }
  assert (L : 1 = 0 + 1 / 4 * evaluate (nth 0 bs []) 1 + 3 / 4 * evaluate (nth 1 bs []) 1).
  { assert (E := b_interp [1 / 4; 3 / 4] bs D B [0; 1] 1 ltac:(cbn; lia)). cbn [length rsum nth] in E.
    assert (V : forall t, evaluate [0; 1] t = t) by (intros t; unfold evaluate; cbn; ring). rewrite !V in E. exact E. }
  assert (S1 := S 1). unfold endpts2d, end_values. change (N shipped) with 2%nat. cbn [rsum Nat.eqb]. change ((0 * 2 + 0) / 2)%nat with 0%nat. change ((1 * 2 + 0) / 2)%nat with 1%nat.
  change ((0 * 2 + 1) / 2)%nat with 0%nat. cbn [nth]. split; [lra|]. split; [nra|lra].
Qed.
