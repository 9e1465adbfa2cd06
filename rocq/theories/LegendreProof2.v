(** Gauss-Legendre quadrature: the rule with nodes at the roots of L_n and weights proportional to
    1 / (L_n' L_{n-1}) integrates every polynomial of degree below 2n exactly. *)
From Coq Require Import Reals Lra Lia List.
From Coquelicot Require Import Coquelicot.
From Verif Require Import Base Sum PolyModel PolyProof LegendreModel LegendreSpec LegendreProof.
Import List ListNotations.
Open Scope R_scope.

Definition span (m : nat) (f : R -> R) : Prop := exists a, forall x, f x = rsum m (fun i => a i * L i x).

Lemma span_ext m f g : (forall x, f x = g x) -> span m f -> span m g.
Proof. intros E [a A]. exists a. intros x. now rewrite <- E. Qed.
Lemma span_mono m m' f : (m <= m')%nat -> span m f -> span m' f.
Proof.
  intros H [a A]. exists (fun i => if Nat.ltb i m then a i else 0). intros x. rewrite A.
  replace m' with (m + (m' - m))%nat by lia. rewrite rsum_split. rewrite (rsum_zero (m' - m)).
  - rewrite Rplus_0_r. apply rsum_ext. intros i Hi. apply Nat.ltb_lt in Hi. now rewrite Hi.
  - intros i Hi. destruct (Nat.ltb_spec (m + i) m); [lia|]. ring.
Qed.
Lemma span_add m f g : span m f -> span m g -> span m (fun x => f x + g x).
Proof.
  intros [a A] [b B]. exists (fun i => a i + b i). intros x. rewrite A, B, <- rsum_plus. apply rsum_ext. intros; ring.
Qed.
Lemma span_scal m c f : span m f -> span m (fun x => c * f x).
Proof. intros [a A]. exists (fun i => c * a i). intros x. rewrite A, <- rsum_scal. apply rsum_ext. intros; ring. Qed.
Lemma span_L m i : (i < m)%nat -> span m (L i).
Proof.
  intros H. exists (fun k => if Nat.eqb k i then 1 else 0). intros x. rewrite (rsum_single m i _ H).
  - rewrite Nat.eqb_refl. ring.
  - intros k _ N. apply Nat.eqb_neq in N. rewrite N. ring.
Qed.
Lemma span_sum m M a (f : nat -> R -> R) : (forall i, (i < m)%nat -> span M (f i)) -> span M (fun x => rsum m (fun i => a i * f i x)).
Proof.
  induction m as [|m IH]; intros H; cbn [rsum].
  - exists (fun _ => 0). intros x. rewrite rsum_zero; [reflexivity|]. intros; ring.
  - apply span_add; [apply IH; intros; apply H; lia|]. apply span_scal. apply H. lia.
Qed.
Lemma span_xL i : span (i + 2) (fun x => x * L i x).
Proof.
  destruct i as [|j].
  - apply (span_ext _ (L 1)); [intros x; rewrite L0, L1; ring|]. apply span_L. lia.
  - apply (span_ext _ (fun x => INR (j + 2) / INR (2 * j + 3) * L (S (S j)) x + INR (j + 1) / INR (2 * j + 3) * L j x)).
    + intros x. pose proof (LSS j x) as E. assert (N : INR (2 * j + 3) <> 0) by (apply not_0_INR; lia).
      apply (Rmult_eq_reg_l (INR (2 * j + 3))); [|exact N]. field_simplify; [lra|exact N].
    + apply span_add; apply span_scal; apply span_L; lia.
Qed.
Lemma span_x m f : span m f -> span (S m) (fun x => x * f x).
Proof.
  intros [a A]. apply (span_ext _ (fun x => rsum m (fun i => a i * (x * L i x)))).
  - intros x. rewrite A, <- rsum_scal. apply rsum_ext. intros; ring.
  - apply (span_sum m (S m) a (fun i x => x * L i x)). intros i Hi. apply (span_mono (i + 2)); [lia|apply span_xL].
Qed.
Lemma span_const m c : (0 < m)%nat -> span m (fun _ => c).
Proof. intros H. apply (span_ext _ (fun x => c * L 0 x)); [intros x; rewrite L0; ring|]. apply span_scal, span_L. exact H. Qed.
Lemma poly_span p : forall n, (length p <= n)%nat -> span n (evaluate p).
Proof.
  induction p as [|a p IH]; intros n H.
  - exists (fun _ => 0). intros x. rewrite rsum_zero; [reflexivity|intros; ring].
  - cbn in H. destruct n as [|n]; [lia|]. apply (span_ext _ (fun x => a + x * evaluate p x)).
    + intros x. rewrite <- !heval_eval. reflexivity.
    + apply span_add; [apply span_const; lia|]. apply span_x, IH. lia.
Qed.
Lemma span_poly m f : span m f -> exists p, (length p <= m)%nat /\ forall x, evaluate p x = f x.
Proof.
  intros [a A].
  assert (P : exists q : nat -> list R, forall i, length (q i) = (i + 1)%nat /\ forall x, evaluate (q i) x = L i x).
  { clear.
      exists (fix f n := match n with O => [1] | S O => [0; 1] | S (S k as k1) =>
        pdiv (padd (pscal (INR (2 * k + 3)) (0 :: f k1)) (pscal (- INR (k + 1)) (f k))) (INR (k + 2)) end).
      set (f := fix f n := match n with O => [1] | S O => [0; 1] | S (S k as k1) =>
        pdiv (padd (pscal (INR (2 * k + 3)) (0 :: f k1)) (pscal (- INR (k + 1)) (f k))) (INR (k + 2)) end).
      assert (E : forall k, f (S (S k)) = pdiv (padd (pscal (INR (2 * k + 3)) (0 :: f (S k))) (pscal (- INR (k + 1)) (f k))) (INR (k + 2))) by reflexivity.
      assert (H : forall i, (length (f i) = (i + 1)%nat /\ (forall x, evaluate (f i) x = L i x)) /\ (length (f (S i)) = (i + 2)%nat /\ (forall x, evaluate (f (S i)) x = L (S i) x))).
      { induction i as [|i [[A1 A2] [B1 B2]]].
        - repeat split; intros x; rewrite <- heval_eval; [rewrite L0|rewrite L1]; cbn; ring.
        - split; [split; [lia|exact B2]|]. rewrite E. split.
          + rewrite pdiv_len, padd_len, !pscal_len. cbn [length]. lia.
          + intros x. rewrite pdiv_eval, padd_eval, !pscal_eval, A2, LSS'. rewrite <- (heval_eval (0 :: f (S i))). cbn [heval].
            rewrite heval_eval, B2. field. apply INR2. }
      intros i. apply H. }
  destruct P as [q Q]. exists (psum m (fun i => pscal (a i) (q i))). split.
  - apply psum_len. intros i Hi. rewrite pscal_len. destruct (Q i) as [Li _]. lia.
  - intros x. rewrite psum_eval, A. apply rsum_ext. intros i Hi. rewrite pscal_eval. destruct (Q i) as [_ Ei]. now rewrite Ei.
Qed.

(** integrals *)
Lemma is_RInt_rsum n (f : nat -> R -> R) a b (v : nat -> R) : (forall i, (i < n)%nat -> is_RInt (f i) a b (v i)) ->
  is_RInt (fun x => rsum n (fun i => f i x)) a b (rsum n v).
Proof.
  induction n as [|n IH]; intros H; cbn [rsum].
  - pose proof (is_RInt_const a b 0) as C. unfold scal in C; cbn in C; unfold mult in C; cbn in C. rewrite Rmult_0_r in C. exact C.
  - apply (is_RInt_plus (fun x => rsum n (fun i => f i x)) (f n)); [apply IH; intros; apply H; lia|apply H; lia].
Qed.
Lemma is_RInt_Rscal (f : R -> R) (a b c v : R) : is_RInt f a b v -> is_RInt (fun x => c * f x) a b (c * v).
Proof. intros H. exact (is_RInt_scal f a b c v H). Qed.
Lemma is_RInt_fext (f g : R -> R) (a b v w : R) : (forall x, f x = g x) -> v = w -> is_RInt f a b v -> is_RInt g a b w.
Proof. intros E <- H. apply (is_RInt_ext f); [intros; apply E|exact H]. Qed.
Lemma int_L0 : is_RInt (L 0) (-1) 1 2.
Proof.
  apply (is_RInt_fext (fun _ => 1) (L 0) (-1) 1 (scal (1 - -1) 1)); [reflexivity| |apply (is_RInt_const (-1) 1 1)].
  unfold scal; cbn; unfold mult; cbn; ring.
Qed.
Lemma int_L i : is_RInt (L i) (-1) 1 (if Nat.eqb i 0 then 2 else 0).
Proof.
  destruct (Nat.eqb_spec i 0) as [-> |N]; [exact int_L0|].
  apply (is_RInt_fext (fun x => L i x * L 0 x) _ _ _ 0); [intros x; rewrite L0; ring|reflexivity|]. apply orthogonal. exact N.
Qed.
Lemma int_orth n q : span n q -> is_RInt (fun x => q x * L n x) (-1) 1 0.
Proof.
  intros [a A]. apply (is_RInt_fext (fun x => rsum n (fun i => a i * (L i x * L n x))) _ _ _ (rsum n (fun i => a i * 0))).
  - intros x. rewrite A, <- rsum_scal_r. apply rsum_ext. intros; ring.
  - apply rsum_zero. intros; ring.
  - apply (is_RInt_rsum n (fun i x => a i * (L i x * L n x))). intros i Hi. apply is_RInt_Rscal. apply orthogonal. lia.
Qed.

(** division by L_n *)
Lemma division n : (0 < n)%nat -> forall p m, (length p <= n + m)%nat -> exists q r, span m q /\ span n r /\ forall x, evaluate p x = q x * L n x + r x.
Proof.
  intros Hn. induction p as [|a p IH]; intros m H.
  - exists (fun _ => 0), (fun _ => 0). split; [|split].
    + exists (fun _ => 0). intros x. rewrite rsum_zero; [reflexivity|intros; ring].
    + exists (fun _ => 0). intros x. rewrite rsum_zero; [reflexivity|intros; ring].
    + intros x. rewrite <- heval_eval. cbn. ring.
  - destruct m as [|m].
    + exists (fun _ => 0), (evaluate (a :: p)). split; [|split].
      * exists (fun _ => 0). intros x. reflexivity.
      * apply poly_span. lia.
      * intros x. ring.
    + cbn [length] in H. destruct (IH m) as [q [r [Q [Rr E]]]]; [lia|].
      destruct (span_x _ _ Rr) as [b B].
      exists (fun x => x * q x + b n), (fun x => rsum n (fun i => b i * L i x) + a). split; [|split].
      * apply span_add; [now apply span_x|apply span_const; lia].
      * apply span_add; [exists b; reflexivity|apply span_const; lia].
      * intros x. rewrite <- (heval_eval (a :: p)). cbn [heval]. rewrite heval_eval, E. specialize (B x). cbn [rsum] in B. lra.
Qed.

(** Christoffel-Darboux *)
Definition K (n : nat) (x y : R) : R := rsum n (fun j => INR (2 * j + 1) * L j y * L j x).
Lemma CD n x y : (x - y) * K (S n) x y = INR (n + 1) * (L (S n) x * L n y - L n x * L (S n) y).
Proof.
  induction n as [|n IH].
  - unfold K. cbn [rsum]. rewrite !L0, !L1. cbn. ring.
  - unfold K in *. cbn [rsum] in *. rewrite Rmult_plus_distr_l, IH.
    rewrite !(LSS' n). replace (2 * S n + 1)%nat with (2 * n + 3)%nat by lia. replace (S n + 1)%nat with (n + 2)%nat by lia.
    field. apply INR2.
Qed.
Lemma CD_diag n y : K (S n) y y = INR (n + 1) * (D (S n) y * L n y - D n y * L (S n) y).
Proof.
  induction n as [|n IH].
  - unfold K. cbn [rsum]. rewrite !L0, D0, D1. cbn. ring.
  - unfold K in *. cbn [rsum] in *. rewrite IH, DSS', LSS'.
    replace (2 * S n + 1)%nat with (2 * n + 3)%nat by lia. replace (S n + 1)%nat with (n + 2)%nat by lia. field. apply INR2.
Qed.
Lemma K_pos n y : 1 <= K (S n) y y.
Proof.
  unfold K. rewrite rsum_S_l. rewrite !L0. change (INR (2 * 0 + 1)) with 1.
  assert (0 <= rsum n (fun i => INR (2 * S i + 1) * L (S i) y * L (S i) y)); [|lra].
  apply rsum_nonneg. intros i _. rewrite Rmult_assoc. apply Rmult_le_pos; [apply pos_INR|]. apply Rle_0_sqr.
Qed.
Lemma int_K n y : is_RInt (fun x => K (S n) x y) (-1) 1 2.
Proof.
  apply (is_RInt_fext (fun x => rsum (S n) (fun j => (INR (2 * j + 1) * L j y) * L j x)) _ _ _
    (rsum (S n) (fun j => (INR (2 * j + 1) * L j y) * (if Nat.eqb j 0 then 2 else 0)))).
  - reflexivity.
  - rewrite (rsum_single (S n) 0); [rewrite L0; cbn; ring|lia|]. intros i _ N. apply Nat.eqb_neq in N. rewrite N. ring.
  - apply (is_RInt_rsum (S n) (fun j x => (INR (2 * j + 1) * L j y) * L j x)). intros i _. apply is_RInt_Rscal, int_L.
Qed.
Lemma span_K n y : span n (fun x => K n x y).
Proof. exists (fun j => INR (2 * j + 1) * L j y). intros x. reflexivity. Qed.

Section Gauss.
Variable m : nat.
Let n := S m.
Variable xs : nat -> R.
Hypothesis roots : forall k, (k < n)%nat -> L n (xs k) = 0.
Hypothesis dist : forall i j, (i < n)%nat -> (j < n)%nat -> xs i = xs j -> i = j.

Lemma K_diag k : (k < n)%nat -> K n (xs k) (xs k) = INR n * D n (xs k) * L m (xs k).
Proof. intros H. unfold n. rewrite CD_diag. fold n. rewrite roots by exact H. replace (m + 1)%nat with n by (unfold n; lia). ring. Qed.
Lemma K_off i k : (i < n)%nat -> (k < n)%nat -> i <> k -> K n (xs i) (xs k) = 0.
Proof.
  intros Hi Hk N. pose proof (CD m (xs i) (xs k)) as E. fold n in E. rewrite !roots in E by assumption.
  assert (xs i - xs k <> 0) by (intros Z; apply N, dist; auto; lra).
  apply (Rmult_eq_reg_l (xs i - xs k)); [|assumption]. rewrite E. ring.
Qed.
Lemma interp_K r : span n r -> forall x, r x = rsum n (fun k => r (xs k) * (K n x (xs k) / K n (xs k) (xs k))).
Proof.
  intros Rr.
  assert (S2 : span n (fun x => r x + -1 * rsum n (fun k => (r (xs k) / K n (xs k) (xs k)) * K n x (xs k)))).
  { apply span_add; [exact Rr|]. apply (span_scal n (-1)). apply (span_sum n n _ (fun k x => K n x (xs k))). intros; apply span_K. }
  destruct (span_poly _ _ S2) as [p [Lp P]].
  assert (Z : forall t, heval p t = 0).
  { apply (roots_zero (map xs (seq 0 n))).
    - apply (NoDup_nth _ (xs 0%nat)). rewrite map_length, seq_length. intros i j Hi Hj E. rewrite !map_nth, !seq_nth in E by assumption.
      apply dist; auto.
    - now rewrite map_length, seq_length.
    - intros t Ht. apply in_map_iff in Ht. destruct Ht as [k [<- Hk]]. apply in_seq in Hk. rewrite heval_eval, P.
      rewrite (rsum_single n k); [|lia|].
      + field. pose proof (K_pos m (xs k)). fold n in H. lra.
      + intros i Hi N. rewrite (K_off k i); [ring|lia|lia|lia]. }
  intros x. specialize (Z x). rewrite heval_eval, P in Z.
  rewrite (rsum_ext n _ (fun k => r (xs k) / K n (xs k) (xs k) * K n x (xs k))); [lra|]. intros k Hk. unfold Rdiv. ring.
Qed.
Lemma int_span r : span n r -> is_RInt r (-1) 1 (rsum n (fun k => 2 / K n (xs k) (xs k) * r (xs k))).
Proof.
  intros Rr. apply (is_RInt_fext (fun x => rsum n (fun k => (r (xs k) / K n (xs k) (xs k)) * K n x (xs k))) _ _ _
    (rsum n (fun k => (r (xs k) / K n (xs k) (xs k)) * 2))).
  - intros x. rewrite (interp_K r Rr x). apply rsum_ext. intros; unfold Rdiv; ring.
  - apply rsum_ext. intros; unfold Rdiv; ring.
  - apply (is_RInt_rsum n (fun k x => (r (xs k) / K n (xs k) (xs k)) * K n x (xs k))). intros k _. apply is_RInt_Rscal, int_K.
Qed.
Lemma gauss_exact p : (length p <= 2 * n)%nat -> is_RInt (evaluate p) (-1) 1 (quad n xs (fun k => 2 / K n (xs k) (xs k)) (evaluate p)).
Proof.
  intros H. destruct (division n ltac:(unfold n; lia) p n) as [q [r [Q [Rr E]]]]; [lia|].
  unfold quad. rewrite (rsum_ext n _ (fun k => 2 / K n (xs k) (xs k) * r (xs k))).
  - apply (is_RInt_fext (fun x => q x * L n x + r x) _ _ _ (0 + rsum n (fun k => 2 / K n (xs k) (xs k) * r (xs k)))).
    + intros x. now rewrite E.
    + ring.
    + apply (is_RInt_plus (fun x => q x * L n x) r); [now apply int_orth|now apply int_span].
  - intros k Hk. rewrite E, roots by exact Hk. ring.
Qed.
Lemma gauss_sum : rsum n (fun k => 2 / K n (xs k) (xs k)) = 2.
Proof.
  pose proof (int_span (fun _ => 1) (span_const n 1 ltac:(unfold n; lia))) as I.
  pose proof (is_RInt_unique _ _ _ _ I) as E. pose proof (is_RInt_unique _ _ _ _ int_L0) as E0.
  rewrite (RInt_ext _ (L 0)) in E by reflexivity. rewrite E0 in E. symmetry. etransitivity; [exact E|]. apply rsum_ext. intros; ring.
Qed.
End Gauss.
