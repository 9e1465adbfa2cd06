(** Functions that are differentiable several times on an open interval. *)
From Coq Require Import Reals ZArith Lra Psatz Lia.
From Coquelicot Require Import Coquelicot.
Open Scope R_scope.

Section Smooth.
Variables lo hi : R.
Fixpoint smooth (n : nat) (f : R -> R) : Prop :=
  match n with
  | O => True
  | S n => exists f', (forall x, lo < x < hi -> is_derive f x (f' x)) /\ smooth n f'
  end.
Lemma smooth_down n : forall f, smooth (S n) f -> smooth n f.
Proof. induction n as [|n IH]; intros f H; [exact I|]. destruct H as [f' [H1 H2]]. exists f'. split; [exact H1|]. apply IH, H2. Qed.
Lemma smooth_const n : forall c, smooth n (fun _ => c).
Proof. induction n as [|n IH]; intros c; [exact I|]. exists (fun _ => 0). split; [intros x _; apply @is_derive_const|apply IH]. Qed.
Lemma smooth_id n : smooth n (fun x => x).
Proof. destruct n; [exact I|]. exists (fun _ => 1). split; [intros x _; apply @is_derive_id|apply smooth_const]. Qed.
Lemma smooth_add n : forall f g, smooth n f -> smooth n g -> smooth n (fun x => f x + g x).
Proof.
  induction n as [|n IH]; intros f g Hf Hg; [exact I|]. destruct Hf as [f' [F1 F2]], Hg as [g' [G1 G2]]. exists (fun x => f' x + g' x). split; [|apply IH; assumption].
  intros x Hx. apply @is_derive_plus; auto.
Qed.
Lemma smooth_mul n : forall f g, smooth n f -> smooth n g -> smooth n (fun x => f x * g x).
Proof.
  induction n as [|n IH]; intros f g Hf Hg; [exact I|]. assert (Df := smooth_down _ _ Hf). assert (Dg := smooth_down _ _ Hg). destruct Hf as [f' [F1 F2]], Hg as [g' [G1 G2]].
  exists (fun x => f' x * g x + f x * g' x). split; [|apply (smooth_add n (fun x => f' x * g x) (fun x => f x * g' x)); apply IH; assumption].
  intros x Hx. apply @is_derive_mult; [auto|auto|]. intros; apply Rmult_comm.
Qed.
Lemma smooth_exp n : forall f, smooth n f -> smooth n (fun x => exp (f x)).
Proof.
  induction n as [|n IH]; intros f Hf; [exact I|]. assert (Df := smooth_down _ _ Hf). destruct Hf as [f' [F1 F2]]. exists (fun x => f' x * exp (f x)). split; [|apply smooth_mul; [exact F2|apply IH, Df]].
  intros x Hx. apply (is_derive_comp exp f); [apply is_derive_exp|auto].
Qed.
Lemma smooth_inv n : forall f, (forall x, lo < x < hi -> f x <> 0) -> smooth n f -> smooth n (fun x => / f x).
Proof.
  induction n as [|n IH]; intros f NZ Hf; [exact I|]. assert (Df := smooth_down _ _ Hf). destruct Hf as [f' [F1 F2]]. exists (fun x => (-1 * f' x) * (/ f x * / f x)). split.
  - intros x Hx. evar_last; [apply is_derive_inv; [apply F1, Hx|apply NZ, Hx]|]. cbn. field. apply NZ, Hx.
  - apply smooth_mul; [apply (smooth_mul n (fun _ => -1)); [apply smooth_const|exact F2]|]. apply smooth_mul; apply IH; assumption.
Qed.
Lemma smooth_ext n f g : (forall x, g x = f x) -> smooth n f -> smooth n g.
Proof. destruct n; [intros; exact I|]. intros E [f' [H1 H2]]. exists f'. split; [|exact H2]. intros x Hx. apply (is_derive_ext f); [intros; symmetry; apply E|auto]. Qed.

Lemma open_interval x : lo < x < hi -> locally x (fun z => lo < z < hi).
Proof. intros Hx. apply (locally_interval _ x (Finite lo) (Finite hi)); cbn; try lra. intros; lra. Qed.
Lemma smooth_derive_n n : forall f, smooth n f -> forall k x, (k <= n)%nat -> lo < x < hi -> ex_derive_n f k x.
Proof.
  intros f Hf k. destruct k as [|k]; [intros; exact I|]. revert k f Hf.
  assert (X : forall k f, smooth n f -> (k < n)%nat -> exists g, smooth (n - k) g /\ forall x, lo < x < hi -> Derive_n f k x = g x).
  { induction k as [|k IH]; intros f Hf Hk; [exists f; rewrite Nat.sub_0_r; split; [exact Hf|reflexivity]|].
    destruct (IH f Hf ltac:(lia)) as [g [Hg Eg]]. replace (n - k)%nat with (S (n - S k)) in Hg by lia. destruct Hg as [g' [G1 G2]]. exists g'. split; [exact G2|]. intros x Hx. cbn [Derive_n].
    apply is_derive_unique. apply (is_derive_ext_loc g); [|apply G1, Hx]. eapply filter_imp; [|exact (open_interval x Hx)]. intros z Hz. symmetry. apply Eg, Hz. }
  intros k f Hf x Hk Hx. destruct (X k f Hf ltac:(lia)) as [g [Hg Eg]]. replace (n - k)%nat with (S (n - S k)) in Hg by lia. destruct Hg as [g' [G1 _]]. cbn [ex_derive_n]. exists (g' x).
  apply (is_derive_ext_loc g); [|apply G1, Hx]. eapply filter_imp; [|exact (open_interval x Hx)]. intros z Hz. symmetry. apply Eg, Hz.
Qed.
End Smooth.
