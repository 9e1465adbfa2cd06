(** The residual of the predictor as a defect of the equations at the nodes. *)
From Coq Require Import Reals Lia Lra ZArith FunctionalExtensionality.
From Coquelicot Require Import Coquelicot.
From Verif Require Import Base Options Sum PolyModel PolyProof LegendreSpec EqModel EqSpec EqProof WenoProof WenoProof3 FvModel FvBody FvSpec FvProof2 DgModel DgSpec DgProof DgProof2 DgProof3 DgProps StiffProof FaceProps PredSpec.
Import List ListNotations.
Open Scope R_scope.

Section P.
Variables (o : options) (ph : phys) (nodes : list R) (bs : list poly) (w : nat -> R).
Hypothesis HV : VISCOUS o = true.
Hypothesis HN : length nodes = N o.
Hypothesis HB : dg_basis nodes bs w.
Notation n := (N o).
Notation x s := (nth s nodes 0).
Notation psi a z := (evaluate (nth a bs []) z).
Notation D := (Dmat bs (fun k => nth k nodes 0) w).
Notation M := (Mof nodes bs w).
Notation up := (upoly nodes bs).
Notation dup := (dupoly nodes bs).
Notation F d Q := (flux o ph (fun _ => 0) Q d).

Lemma DNd : distinct nodes. Proof. exact (proj1 HB). Qed.
Lemma BPd : basis_polys nodes = Ok bs. Proof. exact (proj1 (proj2 HB)). Qed.
Lemma N1l : (1 <= length nodes)%nat. Proof. exact (proj1 (proj2 (proj2 HB))). Qed.
Lemma EXq : forall p, (length p <= 2 * length nodes)%nat -> is_RInt (evaluate p) 0 1 (quad (length nodes) (fun k => nth k nodes 0) w (evaluate p)).
Proof. exact (proj2 (proj2 (proj2 HB))). Qed.

Lemma interp1_up (q : nodal) z k : interp1 n bs q z k = evaluate (up (fun a => q a k)) z.
Proof. unfold interp1. rewrite (upoly_eval nodes bs). rewrite HN. reflexivity. Qed.
Lemma up_derive (f : R -> R) v t : (forall s, f s = evaluate (up v) s) -> Derive f t = evaluate (dup v) t.
Proof. intros H. rewrite (Derive_ext f (evaluate (up v))) by exact H. apply is_derive_unique, (dupoly_derive nodes bs w BPd N1l EXq). Qed.
(** a derivative at a node, from the table *)
Lemma dup_node v i : (i < n)%nat -> w i * evaluate (dup v) (x i) = rsum n (fun j => D i j * v j).
Proof.
  intros Hi. rewrite (dupoly_eval nodes bs w BPd N1l EXq), HN, <- rsum_scal. apply rsum_ext. intros j Hj.
  rewrite (D_w nodes bs w DNd BPd N1l EXq i j) by (rewrite HN; assumption). ring.
Qed.

Lemma field1_time (q : nodal) i k t : (i < n)%nat -> field1 o bs q t (x i) k = evaluate (up (fun m => q (m * n + i)%nat k)) t.
Proof.
  intros Hi. unfold field1, interp2. rewrite (upoly_eval nodes bs), HN. apply rsum_ext. intros a Ha.
  apply (pick o nodes bs HN DNd BPd (fun b => q (a * n + b)%nat k * psi a t)), Hi.
Qed.
Lemma field1_space (q : nodal) m k z : (m < n)%nat -> field1 o bs q (x m) z k = evaluate (up (fun i => q (m * n + i)%nat k)) z.
Proof.
  intros Hm. unfold field1, interp2. rewrite (upoly_eval nodes bs), HN.
  rewrite (rsum_ext n _ (fun a => rsum n (fun b => q (a * n + b)%nat k * psi b z) * psi a (x m))).
  - exact (pick o nodes bs HN DNd BPd (fun a => rsum n (fun b => q (a * n + b)%nat k * psi b z)) m Hm).
  - intros a Ha. rewrite <- rsum_scal_r. apply rsum_ext. intros; ring.
Qed.
Lemma field2_time (q : nodal) i j k t : (i < n)%nat -> (j < n)%nat -> field2 o bs q t (x i) (x j) k = evaluate (up (fun m => q ((m * n + i) * n + j)%nat k)) t.
Proof.
  intros Hi Hj. unfold field2. rewrite (upoly_eval nodes bs), HN. apply rsum_ext. intros m Hm.
  rewrite (interp_nodes_2d o nodes bs HN DNd BPd) by assumption. replace (m * (n * n) + (i * n + j))%nat with ((m * n + i) * n + j)%nat by ring. ring.
Qed.
Lemma field2_space (q : nodal) m k z y : (m < n)%nat -> field2 o bs q (x m) z y k = interp2 n bs (fun s => q (m * (n * n) + s)%nat) z y k.
Proof.
  intros Hm. unfold field2. rewrite (rsum_ext n _ (fun a => interp2 n bs (fun s => q (a * (n * n) + s)%nat) z y k * psi a (x m))) by (intros; ring).
  exact (pick o nodes bs HN DNd BPd (fun a => interp2 n bs (fun s => q (a * (n * n) + s)%nat) z y k) m Hm).
Qed.
Lemma interp2_x (q : nodal) j k z : (j < n)%nat -> interp2 n bs q z (x j) k = evaluate (up (fun i => q (i * n + j)%nat k)) z.
Proof. intros Hj. exact (field1_time q j k z Hj). Qed.
Lemma interp2_y (q : nodal) i k y : (i < n)%nat -> interp2 n bs q (x i) y k = evaluate (up (fun j => q (i * n + j)%nat k)) y.
Proof. intros Hi. exact (field1_space q i k y Hi). Qed.

(** the terms of the right-hand sides *)
Lemma slope1 (q : nodal) m i c : (m < n)%nat -> (i < n)%nat ->
  Derive (fun z => field1 o bs q (x m) z c) (x i) = derivs1d o (Dv bs nodes) (fun s => q (m * n + s)%nat) i c.
Proof.
  intros Hm Hi. rewrite (up_derive _ (fun i => q (m * n + i)%nat c)) by (intros; apply field1_space; exact Hm).
  rewrite (dupoly_eval nodes bs w BPd N1l EXq), HN. unfold derivs1d, Dv. apply rsum_ext. intros; ring.
Qed.
Lemma slope2 (q : nodal) m i j c : (m < n)%nat -> (i < n)%nat -> (j < n)%nat ->
  Derive (fun z => field2 o bs q (x m) z (x j) c) (x i) = derivs2d o (Dv bs nodes) (fun s => q (m * (n * n) + s)%nat) 0 (i * n + j)%nat c /\
  Derive (fun y => field2 o bs q (x m) (x i) y c) (x j) = derivs2d o (Dv bs nodes) (fun s => q (m * (n * n) + s)%nat) 1 (i * n + j)%nat c.
Proof.
  intros Hm Hi Hj. destruct (slopes_2d o nodes bs HN DNd BPd (fun s => q (m * (n * n) + s)%nat) i j c Hi Hj) as [A B].
  split; (etransitivity; [apply Derive_ext; intros s; apply field2_space; exact Hm|]); apply is_derive_unique; assumption.
Qed.
Lemma fslope1 (q : nodal) m i k : (i < n)%nat -> w i * Derive (fun z => flux1 o ph bs q m z k) (x i) = rsum n (fun j => D i j * F 0 (q (m * n + j)%nat) k).
Proof.
  intros Hi. rewrite (up_derive _ (fun a => F 0 (q (m * n + a)%nat) k)) by (intros s; apply (interp1_up (fun a => F 0 (q (m * n + a)%nat)))). apply dup_node, Hi.
Qed.
Lemma fslope2x (q : nodal) m i j k : (i < n)%nat -> (j < n)%nat ->
  w i * Derive (fun z => flux2 o ph bs 0 q m z (x j) k) (x i) = rsum n (fun j' => D i j' * F 0 (q ((m * n + j') * n + j)%nat) k).
Proof.
  intros Hi Hj. rewrite (up_derive _ (fun a => F 0 (q (m * (n * n) + (a * n + j))%nat) k)) by (intros s; apply (interp2_x (fun s => F 0 (q (m * (n * n) + s)%nat))), Hj).
  rewrite dup_node by exact Hi. apply rsum_ext. intros a Ha. replace (m * (n * n) + (a * n + j))%nat with ((m * n + a) * n + j)%nat by ring. reflexivity.
Qed.
Lemma fslope2y (q : nodal) m i j k : (i < n)%nat -> (j < n)%nat ->
  w j * Derive (fun y => flux2 o ph bs 1 q m (x i) y k) (x j) = rsum n (fun j' => D j j' * F 1 (q ((m * n + i) * n + j')%nat) k).
Proof.
  intros Hi Hj. rewrite (up_derive _ (fun a => F 1 (q (m * (n * n) + (i * n + a))%nat) k)) by (intros s; apply (interp2_y (fun s => F 1 (q (m * (n * n) + s)%nat))), Hi).
  rewrite dup_node by exact Hj. apply rsum_ext. intros a Ha. replace (m * (n * n) + (i * n + a))%nat with ((m * n + i) * n + a)%nat by ring. reflexivity.
Qed.

Lemma npos : (1 <= n)%nat. Proof. rewrite <- HN. exact N1l. Qed.

Lemma rhs1_rate dt dx (p w0 : nodal) : exists b, rhs1 o ph w (Dv bs nodes) D dt dx p (initial_condition1 o w (end_values bs) w0) = Ok b /\
  forall m i k, (m < n)%nat -> (i < n)%nat -> b (m * n + i)%nat k = w i * (w m * (dt * rate1 o ph nodes bs dx p m i k) + psi m 0 * w0 i k).
Proof.
  destruct (rhs1_ok o ph HV w (Dv bs nodes) D npos dt dx p (initial_condition1 o w (end_values bs) w0)) as [b [E Eb]]. exists b. split; [exact E|].
  intros m i k Hm Hi. rewrite Eb by (apply pack_lt; assumption). cbv zeta. destruct (divmod n m i Hi) as [Em Ei]. unfold initial_condition1. rewrite Em, Ei.
  unfold end_values. cbn [Nat.eqb]. rewrite <- (fslope1 p m i k Hi). unfold rate1. cbv zeta. rewrite (bdot_spec o HV) by lia.
  rewrite (functional_extensionality (fun c => Derive (fun z => field1 o bs p (x m) z c) (x i) / dx) (fun c => derivs1d o (Dv bs nodes) (fun s => p (m * n + s)%nat) i c / dx)) by (intros c; now rewrite slope1).
  unfold Rdiv. ring.
Qed.
Lemma rhs2_rate dt dx dy (p w0 : nodal) : exists b, rhs2 o ph w (Dv bs nodes) D dt dx dy p (initial_condition2 o w (end_values bs) w0) = Ok b /\
  forall m i j k, (m < n)%nat -> (i < n)%nat -> (j < n)%nat ->
  b ((m * n + i) * n + j)%nat k = w i * w j * (w m * (dt * rate2 o ph nodes bs dx dy p m i j k) + psi m 0 * w0 (i * n + j)%nat k).
Proof.
  destruct (rhs2_ok o ph HV w (Dv bs nodes) D npos dt dx dy p (initial_condition2 o w (end_values bs) w0)) as [b [E Eb]]. exists b. split; [exact E|].
  intros m i j k Hm Hi Hj. rewrite Eb by (repeat apply pack_lt; assumption). cbv zeta. destruct (divmod3 o npos m i j Hi Hj) as [Em [Ei Ej]]. unfold initial_condition2. rewrite Em, Ei, Ej.
  unfold end_values. cbn [Nat.eqb]. rewrite <- (fslope2y p m i j k Hi Hj).
  rewrite (rsum_ext n _ (fun j' => w m * w j * / dx * (D i j' * F 0 (p ((m * n + j') * n + j)%nat) k))) by (intros j' Hj'; destruct (divmod n (m * n + j') j Hj) as [_ ->]; unfold Rdiv; ring).
  rewrite rsum_scal, <- (fslope2x p m i j k Hi Hj). unfold rate2. cbv zeta. rewrite !(bdot_spec o HV) by lia.
  rewrite (functional_extensionality (fun c => Derive (fun z => field2 o bs p (x m) z (x j) c) (x i) / dx) (fun c => derivs2d o (Dv bs nodes) (fun s => p (m * (n * n) + s)%nat) 0 (i * n + j)%nat c / dx)) by (intros c; now rewrite (proj1 (slope2 p m i j c Hm Hi Hj))).
  rewrite (functional_extensionality (fun c => Derive (fun y => field2 o bs p (x m) (x i) y c) (x j) / dy) (fun c => derivs2d o (Dv bs nodes) (fun s => p (m * (n * n) + s)%nat) 1 (i * n + j)%nat c / dy)) by (intros c; now rewrite (proj2 (slope2 p m i j c Hm Hi Hj))).
  unfold Rdiv. ring.
Qed.

(** the time operator *)
Lemma time1 (q : nodal) m i k : (m < n)%nat -> (i < n)%nat -> rsum (n * n) (fun c => U1 o w M (m * n + i) c * q c k) =
  w i * (w m * Derive (fun t => field1 o bs q t (x i) k) (x m) + psi m 0 * field1 o bs q 0 (x i) k).
Proof.
  intros Hm Hi. rewrite U1_row by (try apply npos; apply pack_lt; assumption). destruct (divmod n m i Hi) as [-> ->].
  rewrite field1_time by exact Hi. rewrite (up_derive _ (fun m => q (m * n + i)%nat k)) by (intros; apply field1_time; exact Hi).
  assert (E := M_row nodes bs w DNd BPd N1l EXq (fun m => q (m * n + i)%nat k) m ltac:(rewrite HN; exact Hm)). cbv beta in E. rewrite HN in E.
  rewrite <- E, <- rsum_scal. apply rsum_ext. intros a Ha. change (Mmat bs (fun k0 => x k0) w) with M. ring.
Qed.
Lemma time2 (q : nodal) m i j k : (m < n)%nat -> (i < n)%nat -> (j < n)%nat -> rsum (n * n * n) (fun c => U2 o w M ((m * n + i) * n + j) c * q c k) =
  w i * w j * (w m * Derive (fun t => field2 o bs q t (x i) (x j) k) (x m) + psi m 0 * field2 o bs q 0 (x i) (x j) k).
Proof.
  intros Hm Hi Hj. rewrite U2_row by (try apply npos; repeat apply pack_lt; assumption). destruct (divmod3 o npos m i j Hi Hj) as [-> [-> ->]].
  rewrite field2_time by assumption. rewrite (up_derive _ (fun m => q ((m * n + i) * n + j)%nat k)) by (intros; apply field2_time; assumption).
  assert (E := M_row nodes bs w DNd BPd N1l EXq (fun m => q ((m * n + i) * n + j)%nat k) m ltac:(rewrite HN; exact Hm)). cbv beta in E. rewrite HN in E.
  rewrite <- E, <- rsum_scal. apply rsum_ext. intros a Ha. change (Mmat bs (fun k0 => x k0) w) with M. ring.
Qed.

(** what the last time level gains over the initial values *)
Lemma end1 (q : nodal) i k : (i < n)%nat -> rsum n (fun m => w m * Derive (fun t => field1 o bs q t (x i) k) (x m)) = field1 o bs q 1 (x i) k - field1 o bs q 0 (x i) k.
Proof.
  intros Hi. rewrite !field1_time by exact Hi. rewrite (rsum_ext n _ (fun m => w m * evaluate (dup (fun m => q (m * n + i)%nat k)) (x m))).
  - rewrite <- HN. apply (quad_dupoly nodes bs w BPd N1l EXq).
  - intros m Hm. rewrite (up_derive _ (fun m => q (m * n + i)%nat k)) by (intros; apply field1_time; exact Hi). reflexivity.
Qed.
Lemma end2 (q : nodal) i j k : (i < n)%nat -> (j < n)%nat -> rsum n (fun m => w m * Derive (fun t => field2 o bs q t (x i) (x j) k) (x m)) = field2 o bs q 1 (x i) (x j) k - field2 o bs q 0 (x i) (x j) k.
Proof.
  intros Hi Hj. rewrite !field2_time by assumption. rewrite (rsum_ext n _ (fun m => w m * evaluate (dup (fun m => q ((m * n + i) * n + j)%nat k)) (x m))).
  - rewrite <- HN. apply (quad_dupoly nodes bs w BPd N1l EXq).
  - intros m Hm. rewrite (up_derive _ (fun m => q ((m * n + i) * n + j)%nat k)) by (intros; apply field2_time; assumption). reflexivity.
Qed.
Lemma psi_one z : rsum n (fun m => psi m z) = 1.
Proof. rewrite <- HN. exact (sum_psi nodes bs DNd BPd N1l z). Qed.
(** the mean of a derivative is the difference of the end values *)
Lemma mean_slope (f : R -> R) v : (forall z, f z = evaluate (up v) z) -> rsum n (fun i => w i * Derive f (x i)) = f 1 - f 0.
Proof.
  intros H. rewrite !H. rewrite (rsum_ext n _ (fun i => w i * evaluate (dup v) (x i))) by (intros; now rewrite (up_derive f v) by exact H).
  rewrite <- HN. apply (quad_dupoly nodes bs w BPd N1l EXq).
Qed.
End P.
