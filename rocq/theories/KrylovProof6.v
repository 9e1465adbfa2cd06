(** The Newton iteration on affine functions, and decompositions that meet what is asked of Eigen. *)
From Coq Require Import Reals Lra Psatz Lia.
From Verif Require Import Base Sum KrylovModel KrylovSpec KrylovProof KrylovProof2 KrylovProof3 KrylovProof4 KrylovProof5.
Import List ListNotations.
Open Scope R_scope.

(** ** a least squares solver *)
(** coefficients of the projection of [g] on the span of the first [q] vectors *)
Fixpoint proj (n q : nat) (V : nat -> dv) (g : dv) : dv :=
  match q with
  | O => fun _ => 0
  | S q =>
    let d := proj n q V (V q) in let e := proj n q V g in
    let u := vsub (V q) (lincomb q d V) in let w := vsub g (lincomb q e V) in
    if Req_EM_T (vdot n u u) 0 then fun r => if Nat.eqb r q then 0 else e r
    else let t := vdot n w u / vdot n u u in fun r => if Nat.eqb r q then t else e r - t * d r
  end.
Lemma lin_new q c V x i : lincomb (S q) (fun r => if Nat.eqb r q then x else c r) V i = lincomb q c V i + x * V q i.
Proof. unfold lincomb. cbn [rsum]. rewrite Nat.eqb_refl. f_equal. apply rsum_ext. intros r Hr. destruct (Nat.eqb_spec r q); [lia|reflexivity]. Qed.
Lemma proj_ok n q : forall V g r, (r < q)%nat -> vdot n (V r) (vsub g (lincomb q (proj n q V g) V)) = 0.
Proof.
  induction q as [|q IH]; intros V g r Hr; [lia|]. cbn [proj]. set (d := proj n q V (V q)). set (e := proj n q V g). set (u := vsub (V q) (lincomb q d V)). set (w := vsub g (lincomb q e V)).
  assert (U : forall s, (s < q)%nat -> vdot n (V s) u = 0) by (intros s Hs; apply IH, Hs). assert (W : forall s, (s < q)%nat -> vdot n (V s) w = 0) by (intros s Hs; apply IH, Hs).
  assert (VQ : forall z, (forall s, (s < q)%nat -> vdot n (V s) z = 0) -> vdot n (V q) z = vdot n u z).
  { intros z Hz. unfold u. rewrite (dot_comm n (vsub _ _) z), dot_sub_r, dot_lin_r, (dot_comm n z (V q)). rewrite rsum_zero; [ring|]. intros s Hs. rewrite dot_comm, Hz by exact Hs. ring. }
  destruct (Req_EM_T (vdot n u u) 0) as [Z|Z].
  - assert (E : vdot n (V r) (vsub g (lincomb (S q) (fun r => if Nat.eqb r q then 0 else e r) V)) = vdot n (V r) w) by (apply dot_ext; [reflexivity|]; intros i _; unfold w, vsub; rewrite lin_new; ring). rewrite E.
    destruct (Nat.eq_dec r q) as [->|N]; [|apply W; lia]. rewrite VQ by exact W. assert (UZ : forall i, (i < n)%nat -> u i = 0) by (apply norm_zero; unfold vnorm; rewrite Z; apply sqrt_0). unfold vdot. apply rsum_zero. intros i Hi. rewrite UZ by exact Hi. ring.
  - set (t := vdot n w u / vdot n u u). assert (E : forall i, vsub g (lincomb (S q) (fun r => if Nat.eqb r q then t else e r - t * d r) V) i = vsub w (vscal t u) i).
    { intros i. unfold vsub at 1. rewrite (lin_new q (fun r => e r - t * d r)). unfold w, u, vsub, vscal, lincomb. rewrite (rsum_ext q (fun r => (e r - t * d r) * V r i) (fun r => e r * V r i - t * (d r * V r i))) by (intros; ring). rewrite rsum_minus, rsum_scal. ring. }
    rewrite (dot_ext n (V r) (V r) _ (vsub w (vscal t u))) by (intros; first [reflexivity|apply E]).
    destruct (Nat.eq_dec r q) as [->|N]; [|rewrite dot_sub_r, dot_scal_r, W, U by lia; ring]. rewrite VQ; [rewrite dot_sub_r, dot_scal_r, (dot_comm n u w); unfold t; field; exact Z|]. intros s Hs. rewrite dot_sub_r, dot_scal_r, W, U by exact Hs. ring.
Qed.
Definition lsolve_ls (q : nat) (T : dmat) (g : dv) : dv := proj q q (fun c r => T r c) g.
Lemma lsolve_ls_ok : lsq_ok lsolve_ls.
Proof.
  intros q T g y. set (V := fun c r => T r c). set (y0 := lsolve_ls q T g). set (d := fun k => y k - y0 k).
  assert (M : forall z, misfit q T g z = vdot q (vsub (lincomb q z V) g) (vsub (lincomb q z V) g)).
  { intros z. unfold misfit, vdot, vsub, lincomb, V. apply rsum_ext. intros r _. rewrite (rsum_ext q (fun k => T r k * z k) (fun k => z k * T r k)) by (intros; ring). reflexivity. }
  rewrite !M. assert (O : vdot q (lincomb q d V) (vsub (lincomb q y0 V) g) = 0).
  { rewrite dot_comm, dot_lin_r. apply rsum_zero. intros r Hr. assert (P := proj_ok q q V g r Hr). fold V y0 in P. change (proj q q V g) with y0 in P. rewrite dot_sub_r in P. rewrite dot_comm, dot_sub_r. replace (vdot q (V r) (lincomb q y0 V) - vdot q (V r) g) with 0 by lra. ring. }
  assert (E : vdot q (vsub (lincomb q y V) g) (vsub (lincomb q y V) g) = vdot q (vsub (lincomb q y0 V) g) (vsub (lincomb q y0 V) g) + 2 * vdot q (lincomb q d V) (vsub (lincomb q y0 V) g) + vdot q (lincomb q d V) (lincomb q d V)).
  { unfold vdot. rewrite <- (rsum_scal q 2), <- !rsum_plus. apply rsum_ext. intros i _. unfold vsub. assert (X : lincomb q y V i = lincomb q y0 V i + lincomb q d V i) by (unfold lincomb; rewrite <- rsum_plus; apply rsum_ext; intros k _; unfold d; ring). rewrite X. ring. }
  rewrite E, O. assert (P := vdot_nonneg q (lincomb q d V)). lra.
Qed.

(** ** a QR decomposition by Householder reflections *)
Definition mmul (p : nat) (A C : dmat) : dmat := fun i j => rsum p (fun k => A i k * C k j).
Definition reflect (p : nat) (a : dv) : dmat :=
  let v := vsub a (vscal (vnorm p a) (delta 0)) in
  let s := vdot p v v in
  if Req_EM_T s 0 then delta else fun i j => delta i j - 2 / s * (v i * v j).
Lemma reflect_sym p a i j : reflect p a i j = reflect p a j i.
Proof. unfold reflect. assert (D : delta i j = delta j i) by (unfold delta; rewrite Nat.eqb_sym; reflexivity). destruct (Req_EM_T _ 0); rewrite D; [reflexivity|ring]. Qed.
Lemma delta_sum_l p i f : (i < p)%nat -> rsum p (fun k => delta i k * f k) = f i.
Proof. intros H. rewrite (rsum_single p i); [rewrite delta_same; ring|exact H|]. intros k _ N. rewrite delta_other by auto. ring. Qed.
Lemma reflect_inv p a i j : (i < p)%nat -> (j < p)%nat -> rsum p (fun k => reflect p a i k * reflect p a k j) = delta i j.
Proof.
  intros Hi Hj. unfold reflect. set (v := vsub a (vscal (vnorm p a) (delta 0))). destruct (Req_EM_T (vdot p v v) 0) as [Z|Z]; [apply (delta_sum_l p i (fun k => delta k j)), Hi|]. set (s := vdot p v v) in *.
  rewrite (rsum_ext p _ (fun k => (delta i k * (delta k j - 2 / s * (v k * v j))) - (2 / s * v i * (delta j k * v k)) + (4 / (s * s) * v i * v j) * (v k * v k))).
  - rewrite rsum_plus, rsum_minus, !rsum_scal. rewrite (delta_sum_l p i (fun k => delta k j - 2 / s * (v k * v j)) Hi), (delta_sum_l p j v Hj). change (rsum p (fun k => v k * v k)) with s. field. exact Z.
  - intros k _. assert (D : delta k j = delta j k) by (unfold delta; rewrite Nat.eqb_sym; reflexivity). rewrite D. field. exact Z.
Qed.
Lemma reflect_col p a i : (1 <= p)%nat -> (i < p)%nat -> rsum p (fun k => reflect p a i k * a k) = vnorm p a * delta 0 i.
Proof.
  intros Hp Hi. unfold reflect. set (N := vnorm p a). set (v := vsub a (vscal N (delta 0))). destruct (Req_EM_T (vdot p v v) 0) as [Z|Z].
  - rewrite delta_sum_l by exact Hi. assert (VZ : v i = 0) by (apply (norm_zero p); [unfold vnorm; rewrite Z; apply sqrt_0|exact Hi]). unfold v, vsub, vscal in VZ. lra.
  - set (s := vdot p v v) in *. rewrite (rsum_ext p _ (fun k => delta i k * a k - 2 / s * v i * (v k * a k))) by (intros; field; exact Z). rewrite rsum_minus, rsum_scal, delta_sum_l by exact Hi.
    assert (NN : vdot p a a = N * N) by (symmetry; apply norm_sq). assert (D0 : vdot p a (delta 0) = a 0%nat) by (apply (dot_unit p 0 a); lia). assert (DD : vdot p (delta 0) (delta 0) = 1) by (rewrite (dot_unit p 0 (delta 0)) by lia; apply delta_same).
    assert (VA : vdot p v a = N * N - N * a 0%nat) by (unfold v; rewrite dot_comm, dot_sub_r, dot_scal_r, NN, D0; reflexivity).
    assert (S2 : s = 2 * (N * N - N * a 0%nat)).
    { unfold s. transitivity (vdot p v a - N * vdot p v (delta 0)); [unfold v at 2; rewrite dot_sub_r, dot_scal_r; reflexivity|]. rewrite VA. unfold v. rewrite (dot_comm p _ (delta 0)), dot_sub_r, dot_scal_r, DD, (dot_comm p (delta 0) a), D0. ring. }
    change (rsum p (fun k => v k * a k)) with (vdot p v a). rewrite VA. replace (N * N - N * a 0%nat) with (s / 2) by lra. unfold v, vsub, vscal. field. exact Z.
Qed.
Lemma orth_mul p A C : orthogonal p A -> orthogonal p C -> orthogonal p (mmul p A C).
Proof.
  intros HA HC r s Hr Hs. unfold mmul. split.
  - transitivity (rsum p (fun a => rsum p (fun b => C a r * C b s * rsum p (fun k => A k a * A k b)))).
    + rewrite (rsum_ext p _ (fun k => rsum p (fun a => rsum p (fun b => A k a * C a r * (A k b * C b s))))). 2:{ intros k _. rewrite <- rsum_scal_r. apply rsum_ext. intros a _. rewrite <- rsum_scal. reflexivity. }
      rewrite rsum_swap. apply rsum_ext. intros a _. rewrite rsum_swap. apply rsum_ext. intros b _. rewrite <- rsum_scal. apply rsum_ext. intros. ring.
    + rewrite (rsum_ext p _ (fun a => C a r * C a s)); [apply (HC r s Hr Hs)|]. intros a Ha. rewrite (rsum_single p a); [rewrite (proj1 (HA a a Ha Ha)), delta_same; ring|exact Ha|]. intros b Hb N. rewrite (proj1 (HA a b Ha Hb)), delta_other by auto. ring.
  - transitivity (rsum p (fun a => rsum p (fun b => A r a * A s b * rsum p (fun k => C a k * C b k)))).
    + rewrite (rsum_ext p _ (fun k => rsum p (fun a => rsum p (fun b => A r a * C a k * (A s b * C b k))))). 2:{ intros k _. rewrite <- rsum_scal_r. apply rsum_ext. intros a _. rewrite <- rsum_scal. reflexivity. }
      rewrite rsum_swap. apply rsum_ext. intros a _. rewrite rsum_swap. apply rsum_ext. intros b _. rewrite <- rsum_scal. apply rsum_ext. intros. ring.
    + rewrite (rsum_ext p _ (fun a => A r a * A s a)); [apply (HA r s Hr Hs)|]. intros a Ha. rewrite (rsum_single p a); [rewrite (proj2 (HC a a Ha Ha)), delta_same; ring|exact Ha|]. intros b Hb N. rewrite (proj2 (HC a b Ha Hb)), delta_other by auto. ring.
Qed.
Lemma mmul_assoc p A C D i j : rsum p (fun k => A i k * mmul p C D k j) = rsum p (fun k => mmul p A C i k * D k j).
Proof.
  unfold mmul. rewrite (rsum_ext p (fun k => A i k * _) (fun k => rsum p (fun l => A i k * C k l * D l j))) by (intros k _; rewrite <- rsum_scal; apply rsum_ext; intros; ring).
  rewrite rsum_swap. apply rsum_ext. intros l _. rewrite rsum_scal_r. reflexivity.
Qed.
(** 1 and then the given block on the diagonal *)
Definition border (Q : dmat) : dmat := fun i j => match i, j with O, O => 1 | S i, S j => Q i j | _, _ => 0 end.
Lemma border_orth p Q : orthogonal p Q -> orthogonal (S p) (border Q).
Proof.
  intros H r s Hr Hs. rewrite !rsum_S_l. destruct r as [|r], s as [|s]; cbn [border].
  - rewrite !rsum_zero by (intros; ring). unfold delta; cbn. lra.
  - rewrite !rsum_zero by (intros; ring). unfold delta; cbn. lra.
  - rewrite !rsum_zero by (intros; ring). unfold delta; cbn. lra.
  - destruct (H r s ltac:(lia) ltac:(lia)) as [A C]. rewrite A, C. unfold delta; cbn. lra.
Qed.
Fixpoint qr_house (p q : nat) (A : dmat) : dmat * dmat :=
  match p, q with
  | S p', S q' =>
    let P := reflect p (fun r => A r 0%nat) in
    let A1 := mmul p P A in
    let '(Q, T) := qr_house p' q' (fun r c => A1 (S r) (S c)) in
    (mmul p P (border Q), fun r c => match r, c with O, _ => A1 0%nat c | S _, O => 0 | S r, S c => T r c end)
  | _, _ => (delta, A)
  end.
Lemma reflect_orth p a : orthogonal p (reflect p a).
Proof.
  intros r s Hr Hs. split; rewrite <- (reflect_inv p a r s Hr Hs); apply rsum_ext; intros k _; [rewrite (reflect_sym p a k r); reflexivity|rewrite (reflect_sym p a s k); reflexivity].
Qed.
Lemma delta_orth p : orthogonal p delta.
Proof.
  intros r s Hr Hs. split; [|apply (delta_sum_l p r (fun k => delta s k)) in Hr; rewrite Hr; unfold delta; rewrite Nat.eqb_sym; reflexivity].
  rewrite (rsum_ext p _ (fun k => delta r k * delta k s)); [apply (delta_sum_l p r (fun k => delta k s)), Hr|]. intros k _. f_equal. unfold delta. rewrite Nat.eqb_sym. reflexivity.
Qed.
Lemma qr_house_ok : qr_ok qr_house.
Proof.
  intros p. induction p as [|p IH]; intros q A H.
  - assert (q = 0%nat) by lia. subst. cbn. split; [intros r s Hr; lia|]. split; intros r c Hr; lia.
  - destruct q as [|q]; [cbn; split; [apply delta_orth|]; split; intros r c Hr Hc; lia|]. cbn [qr_house]. set (P := reflect (S p) (fun r => A r 0%nat)). set (A1 := mmul (S p) P A).
    assert (IHq := IH q (fun r c => A1 (S r) (S c)) ltac:(lia)). destruct (qr_house p q _) as [Q T]. destruct IHq as [QO [TU TA]].
    split; [apply orth_mul; [apply reflect_orth|apply border_orth, QO]|]. split; [intros r c Hr Hc Hrc; destruct r as [|r]; [lia|]; destruct c as [|c]; [reflexivity|]; apply TU; lia|].
    intros r c Hr Hc. set (T' := fun r c : nat => match r, c with O, _ => A1 0%nat c | S _, O => 0 | S r, S c => T r c end). change (A r c = rsum (S p) (fun k => mmul (S p) P (border Q) r k * T' k c)). rewrite <- mmul_assoc. transitivity (rsum (S p) (fun k => P r k * A1 k c)).
    + unfold A1. rewrite mmul_assoc. rewrite (rsum_ext (S p) _ (fun k => delta r k * A k c)); [symmetry; apply (delta_sum_l (S p) r (fun k => A k c)), Hr|]. intros k Hk. f_equal. apply reflect_inv; assumption.
    + apply rsum_ext. intros k Hk. f_equal. unfold mmul, T'. rewrite rsum_S_l. destruct k as [|k]; cbn [border]; [rewrite rsum_zero by (intros; ring); ring|]. rewrite Rmult_0_l, Rplus_0_l. destruct c as [|c].
      * rewrite rsum_zero by (intros; ring). assert (X := reflect_col (S p) (fun r => A r 0%nat) (S k) ltac:(lia) Hk). rewrite delta_other in X by lia. etransitivity; [exact X|ring].
      * rewrite (TA k c) by lia. reflexivity.
Qed.
