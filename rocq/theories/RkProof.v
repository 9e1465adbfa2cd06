(** The order of the Runge-Kutta scheme: expansions in the step with bounds that hold along a whole trajectory. *)
From Coq Require Import Reals ZArith Lra Psatz Lia.
From Coquelicot Require Import Coquelicot.
Open Scope R_scope.

(** a function whose slope is bounded by a power is bounded by the next power *)
Lemma grows (phi dphi : R -> R) K n d : phi 0 = 0 ->
  (forall s, Rmin 0 d <= s <= Rmax 0 d -> is_derive phi s (dphi s)) ->
  (forall s, Rmin 0 d <= s <= Rmax 0 d -> Rabs (dphi s) <= K * Rabs s ^ n) -> 0 <= K ->
  Rabs (phi d) <= K * Rabs d ^ S n.
Proof.
  intros P0 HD HB HK. destruct (MVT_gen phi 0 d dphi) as [c [Hc E]].
  - intros x Hx. apply HD. lra.
  - intros x Hx. apply derivable_continuous_pt. exists (dphi x). apply is_derive_Reals, HD, Hx.
  - rewrite P0, !Rminus_0_r in E. rewrite E, Rabs_mult. cbn [pow]. rewrite <- Rmult_assoc, (Rmult_comm _ (Rabs d ^ n)), <- Rmult_assoc.
    apply Rmult_le_compat_r; [apply Rabs_pos|]. apply Rle_trans with (1 := HB c Hc). rewrite Rmult_comm. apply Rmult_le_compat_r; [exact HK|]. apply pow_incr. split; [apply Rabs_pos|].
    revert Hc. unfold Rmin, Rmax. destruct (Rle_dec 0 d); intros Hc; [rewrite !Rabs_pos_eq; lra|]. rewrite !Rabs_left1; lra.
Qed.

Section Taylor.
Variable F : nat -> R -> R.
Variables a b M : R.
Hypothesis HF : forall k x, (k < 4)%nat -> a <= x <= b -> is_derive (F k) x (F (S k) x).
Hypothesis HM : forall k x, (k <= 4)%nat -> a <= x <= b -> Rabs (F k x) <= M.

Lemma between x d s : a <= x <= b -> a <= x + d <= b -> Rmin 0 d <= s <= Rmax 0 d -> a <= x + s <= b.
Proof using. intros. unfold Rmin, Rmax in *. destruct (Rle_dec 0 d); lra. Qed.
Lemma shifted k x d s : (k < 4)%nat -> a <= x <= b -> a <= x + d <= b -> Rmin 0 d <= s <= Rmax 0 d ->
  is_derive (fun s => F k (x + s)) s (F (S k) (x + s)).
Proof using HF.
  intros Hk X XD S'. assert (H := HF k (x + s) Hk (between _ _ _ X XD S')). replace (F (S k) (x + s)) with (1 * F (S k) (x + s)) by ring.
  apply (is_derive_comp (F k) (fun s => x + s)); [exact H|]. auto_derive; [exact I|ring].
Qed.
Lemma taylor x d : a <= x <= b -> a <= x + d <= b ->
  Rabs (F 0%nat (x + d) - (F 0%nat x + F 1%nat x * d + F 2%nat x / 2 * d ^ 2 + F 3%nat x / 6 * d ^ 3)) <= M * Rabs d ^ 4.
Proof using HF HM.
  intros X XD. assert (M0 : 0 <= M) by (apply Rle_trans with (2 := HM 0%nat x ltac:(lia) X), Rabs_pos).
  assert (IN : forall d s, a <= x + d <= b -> Rmin 0 d <= s <= Rmax 0 d -> a <= x + s <= b) by (intros; eapply between; eassumption).
  assert (SH : forall k d s, (k < 4)%nat -> a <= x + d <= b -> Rmin 0 d <= s <= Rmax 0 d -> is_derive (fun s => F k (x + s)) s (F (S k) (x + s))) by (intros; eapply shifted; eassumption).
  assert (Z : forall d, a <= x + d <= b -> Rabs (F 3%nat (x + d) - F 3%nat x) <= M * Rabs d ^ 1).
  { intros d' XD'. apply (grows (fun s => F 3%nat (x + s) - F 3%nat x) (fun s => F 4%nat (x + s) - 0)); [rewrite Rplus_0_r; ring| | |exact M0].
    - intros s Hs. apply @is_derive_minus; [apply (SH 3%nat d' s); [lia|exact XD'|exact Hs]|apply @is_derive_const].
    - intros s Hs. rewrite Rminus_0_r. cbn [pow]. rewrite Rmult_1_r. apply HM; [lia|exact (IN _ _ XD' Hs)]. }
  assert (Y : forall d, a <= x + d <= b -> Rabs (F 2%nat (x + d) - (F 2%nat x + F 3%nat x * d)) <= M * Rabs d ^ 2).
  { intros d' XD'. apply (grows (fun s => F 2%nat (x + s) - (F 2%nat x + F 3%nat x * s)) (fun s => F 3%nat (x + s) - F 3%nat x)); [rewrite Rplus_0_r; ring| | |exact M0].
    - intros s Hs. apply @is_derive_minus; [apply (SH 2%nat d' s); [lia|exact XD'|exact Hs]|]. auto_derive; [exact I|ring].
    - intros s Hs. apply Z, (IN _ _ XD' Hs). }
  assert (W : forall d, a <= x + d <= b -> Rabs (F 1%nat (x + d) - (F 1%nat x + F 2%nat x * d + F 3%nat x / 2 * d ^ 2)) <= M * Rabs d ^ 3).
  { intros d' XD'. apply (grows (fun s => F 1%nat (x + s) - (F 1%nat x + F 2%nat x * s + F 3%nat x / 2 * s ^ 2)) (fun s => F 2%nat (x + s) - (F 2%nat x + F 3%nat x * s))); [rewrite Rplus_0_r; ring| | |exact M0].
    - intros s Hs. apply @is_derive_minus; [apply (SH 1%nat d' s); [lia|exact XD'|exact Hs]|]. auto_derive; [exact I|field].
    - intros s Hs. apply Y, (IN _ _ XD' Hs). }
  apply (grows (fun s => F 0%nat (x + s) - (F 0%nat x + F 1%nat x * s + F 2%nat x / 2 * s ^ 2 + F 3%nat x / 6 * s ^ 3)) (fun s => F 1%nat (x + s) - (F 1%nat x + F 2%nat x * s + F 3%nat x / 2 * s ^ 2))); [rewrite Rplus_0_r; ring| | |exact M0].
  - intros s Hs. apply @is_derive_minus; [apply (SH 0%nat d s); [lia|exact XD|exact Hs]|]. auto_derive; [exact I|field].
  - intros s Hs. apply W, (IN _ _ XD Hs).
Qed.
(** two values of the rate *)
Lemma lipschitz u v : a <= u <= b -> a <= v <= b -> Rabs (F 0%nat u - F 0%nat v) <= M * Rabs (u - v).
Proof using HF HM.
  intros U V'. assert (M0 : 0 <= M) by (apply Rle_trans with (2 := HM 0%nat u ltac:(lia) U), Rabs_pos).
  assert (H := grows (fun s => F 0%nat (v + s) - F 0%nat v) (fun s => F 1%nat (v + s) - 0) M 0 (u - v)). cbn [pow] in H. rewrite !Rmult_1_r in H. replace (v + (u - v)) with u in H by ring. apply H; [rewrite Rplus_0_r; ring| | |exact M0].
  - intros s Hs. apply @is_derive_minus; [apply (shifted 0%nat v (u - v) s); [lia|exact V'|lra|exact Hs]|apply @is_derive_const].
  - intros s Hs. rewrite Rminus_0_r; cbn [pow]; rewrite ?Rmult_1_r. apply HM; [lia|]. apply (between v (u - v)); [exact V'|lra|exact Hs].
Qed.
End Taylor.

Section Ord.
Variable Dom : R -> R -> Prop.
Hypothesis HDom : forall t s, Dom t s -> 0 <= s <= 1.
(** bounded by the [n]-th power of the step, with one constant for all points *)
Definition ord (n : nat) (G : R -> R -> R) : Prop := exists C, 0 <= C /\ forall t s, Dom t s -> Rabs (G t s) <= C * s ^ n.
Lemma ord_ext n G G' : ord n G -> (forall t s, Dom t s -> G' t s = G t s) -> ord n G'.
Proof using. intros [C [C0 H]] E. exists C. split; [exact C0|]. intros t s D. rewrite (E t s D). exact (H t s D). Qed.
Lemma ord_add n G G' : ord n G -> ord n G' -> ord n (fun t s => G t s + G' t s).
Proof using. intros [C [C0 H]] [C' [C0' H']]. exists (C + C'). split; [lra|]. intros t s D. apply Rle_trans with (1 := Rabs_triang _ _). rewrite Rmult_plus_distr_r. apply Rplus_le_compat; [exact (H t s D)|exact (H' t s D)]. Qed.
Lemma ord_mul m n G G' : ord m G -> ord n G' -> ord (m + n) (fun t s => G t s * G' t s).
Proof using.
  intros [C [C0 H]] [C' [C0' H']]. exists (C * C'). split; [apply Rmult_le_pos; assumption|]. intros t s D. rewrite Rabs_mult, pow_add. replace (C * C' * (s ^ m * s ^ n)) with ((C * s ^ m) * (C' * s ^ n)) by ring.
  apply Rmult_le_compat; try apply Rabs_pos; [exact (H t s D)|exact (H' t s D)].
Qed.
Lemma pow_anti s m n : 0 <= s <= 1 -> (m <= n)%nat -> s ^ n <= s ^ m.
Proof using. intros Hs H. induction H as [|n H IH]; [lra|]. cbn [pow]. assert (0 <= s ^ n) by (apply pow_le; lra). nra. Qed.
Lemma ord_le m n G : (m <= n)%nat -> ord n G -> ord m G.
Proof using HDom. intros L [C [C0 H]]. exists C. split; [exact C0|]. intros t s D. apply Rle_trans with (1 := H t s D). apply Rmult_le_compat_l; [exact C0|]. apply pow_anti; [exact (HDom t s D)|exact L]. Qed.
Lemma ord_pow n : ord n (fun _ s => s ^ n).
Proof using HDom. exists 1. split; [lra|]. intros t s D. rewrite Rabs_pos_eq; [lra|]. apply pow_le, (HDom t s D). Qed.
Lemma ord_num c : ord 0 (fun _ _ => c).
Proof using. exists (Rabs c). split; [apply Rabs_pos|]. intros. cbn [pow]. lra. Qed.
Lemma ord_scale n c G : ord n G -> ord n (fun t s => c * G t s).
Proof using. intros H. exact (ord_mul 0 n _ _ (ord_num c) H). Qed.
Lemma ord_sub n G G' : ord n G -> ord n G' -> ord n (fun t s => G t s - G' t s).
Proof using. intros H H'. apply (ord_ext n (fun t s => G t s + (-1) * G' t s)); [apply ord_add; [exact H|apply ord_scale; exact H']|]. intros; ring. Qed.

Definition bounded (c : R -> R) : Prop := ord 0 (fun t _ => c t).
Lemma b_num c : bounded (fun _ => c). Proof using. exact (ord_num c). Qed.
Lemma b_add c c' : bounded c -> bounded c' -> bounded (fun t => c t + c' t). Proof using. apply (ord_add 0 (fun t _ => c t) (fun t _ => c' t)). Qed.
Lemma b_mul c c' : bounded c -> bounded c' -> bounded (fun t => c t * c' t). Proof using. intros H H'. exact (ord_mul 0 0 _ _ H H'). Qed.

Definition poly (c0 c1 c2 c3 : R -> R) : R -> R -> R := fun t s => c0 t + c1 t * s + c2 t * s ^ 2 + c3 t * s ^ 3.
Record jet (n : nat) (G : R -> R -> R) (c0 c1 c2 c3 : R -> R) : Prop := mkjet {
  j_0 : bounded c0; j_1 : bounded c1; j_2 : bounded c2; j_3 : bounded c3;
  j_eq : ord n (fun t s => G t s - poly c0 c1 c2 c3 t s) }.
Lemma b_pow c n : bounded c -> ord n (fun t s => c t * s ^ n).
Proof using HDom. intros H. exact (ord_mul 0 n _ _ H (ord_pow n)). Qed.
Lemma ord_term c m n : (m <= n)%nat -> bounded c -> ord m (fun t s => c t * s ^ n).
Proof using HDom. intros L H. apply (ord_le m n); [exact L|]. apply b_pow, H. Qed.
Lemma poly_ord0 c0 c1 c2 c3 : bounded c0 -> bounded c1 -> bounded c2 -> bounded c3 -> ord 0 (poly c0 c1 c2 c3).
Proof using HDom.
  intros A B C D. unfold poly. repeat apply ord_add; [exact A| | |].
  - apply (ord_ext 0 (fun t s => c1 t * s ^ 1)); [apply ord_term; [lia|exact B]|]. intros; cbn; ring.
  - apply ord_term; [lia|exact C].
  - apply ord_term; [lia|exact D].
Qed.
Lemma jet_ord0 n G c0 c1 c2 c3 : jet n G c0 c1 c2 c3 -> ord 0 G.
Proof using HDom.
  intros [A B C D E]. apply (ord_ext 0 (fun t s => (G t s - poly c0 c1 c2 c3 t s) + poly c0 c1 c2 c3 t s)); [apply ord_add; [apply (ord_le 0 n); [lia|exact E]|apply poly_ord0; assumption]|]. intros; ring.
Qed.
Lemma jet_ext n G G' c0 c1 c2 c3 d0 d1 d2 d3 : jet n G c0 c1 c2 c3 -> (forall t s, Dom t s -> G' t s = G t s) ->
  (forall t, d0 t = c0 t) -> (forall t, d1 t = c1 t) -> (forall t, d2 t = c2 t) -> (forall t, d3 t = c3 t) -> jet n G' d0 d1 d2 d3.
Proof using.
  intros [A B C D E] HG H0 H1 H2 H3.
  constructor; [refine (ord_ext _ _ _ A _)|refine (ord_ext _ _ _ B _)|refine (ord_ext _ _ _ C _)|refine (ord_ext _ _ _ D _)|refine (ord_ext _ _ _ E _)]; intros t s T; cbn beta; auto.
  unfold poly. rewrite (HG t s T), H0, H1, H2, H3. reflexivity.
Qed.
Lemma jet_add n G G' c0 c1 c2 c3 d0 d1 d2 d3 : jet n G c0 c1 c2 c3 -> jet n G' d0 d1 d2 d3 ->
  jet n (fun t s => G t s + G' t s) (fun t => c0 t + d0 t) (fun t => c1 t + d1 t) (fun t => c2 t + d2 t) (fun t => c3 t + d3 t).
Proof using.
  intros [A B C D E] [A' B' C' D' E']. constructor; try (apply b_add; assumption).
  refine (ord_ext _ _ _ (ord_add _ _ _ E E') _). intros t s _. unfold poly. ring.
Qed.
Lemma jet_coef n c : bounded c -> jet n (fun t _ => c t) c (fun _ => 0) (fun _ => 0) (fun _ => 0).
Proof using. intros H. constructor; try apply b_num; [exact H|]. exists 0. split; [lra|]. intros t s _. unfold poly. match goal with |- Rabs ?x <= _ => replace x with 0 by ring end. rewrite Rabs_R0. lra. Qed.
Lemma jet_scale n c G c0 c1 c2 c3 : bounded c -> jet n G c0 c1 c2 c3 ->
  jet n (fun t s => c t * G t s) (fun t => c t * c0 t) (fun t => c t * c1 t) (fun t => c t * c2 t) (fun t => c t * c3 t).
Proof using.
  intros H [A B C D E]. constructor; try (apply b_mul; assumption).
  refine (ord_ext _ _ _ (ord_mul 0 n _ _ H E) _). intros t s _. unfold poly. ring.
Qed.
Lemma jet_mul n G G' c0 c1 c2 c3 d0 d1 d2 d3 : (n <= 4)%nat -> jet n G c0 c1 c2 c3 -> jet n G' d0 d1 d2 d3 ->
  jet n (fun t s => G t s * G' t s) (fun t => c0 t * d0 t) (fun t => c0 t * d1 t + c1 t * d0 t)
    (fun t => c0 t * d2 t + c1 t * d1 t + c2 t * d0 t) (fun t => c0 t * d3 t + c1 t * d2 t + c2 t * d1 t + c3 t * d0 t).
Proof using HDom.
  intros L J J'. pose proof (jet_ord0 _ _ _ _ _ _ J') as O'. destruct J as [A B C D E], J' as [A' B' C' D' E'].
  constructor; repeat first [apply b_add|apply b_mul|assumption].
  assert (P0 := poly_ord0 _ _ _ _ A B C D).
  assert (Q : ord n (fun t s => (c1 t * d3 t + c2 t * d2 t + c3 t * d1 t) * s ^ 4 + ((c2 t * d3 t + c3 t * d2 t) * s ^ 5 + (c3 t * d3 t) * s ^ 6))).
  { apply ord_add; [|apply ord_add].
    - apply (ord_term (fun t => c1 t * d3 t + c2 t * d2 t + c3 t * d1 t)); [lia|]. repeat first [apply b_add|apply b_mul|assumption].
    - apply (ord_term (fun t => c2 t * d3 t + c3 t * d2 t)); [lia|]. repeat first [apply b_add|apply b_mul|assumption].
    - apply (ord_term (fun t => c3 t * d3 t)); [lia|]. repeat first [apply b_add|apply b_mul|assumption]. }
  assert (X := ord_mul n 0 _ _ E O'). rewrite Nat.add_0_r in X. assert (Y := ord_mul 0 n _ _ P0 E'). cbn [Nat.add] in Y.
  refine (ord_ext _ _ _ (ord_add _ _ _ (ord_add _ _ _ X Y) Q) _). intros t s _. unfold poly. ring.
Qed.
(** one power of the step pushes the coefficients up *)
Lemma jet_shift n G c0 c1 c2 c3 : (n <= 4)%nat -> jet n G c0 c1 c2 c3 -> jet n (fun t s => s * G t s) (fun _ => 0) c0 c1 c2.
Proof using HDom.
  intros L [A B C D E]. constructor; try assumption; [apply b_num|].
  assert (X := ord_mul 1 n _ _ (ord_pow 1) E). apply (ord_le n) in X; [|lia].
  refine (ord_ext _ _ _ (ord_add _ _ _ X (ord_term c3 n 4 L D)) _). intros t s _. unfold poly. ring.
Qed.
End Ord.
