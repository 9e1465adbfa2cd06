(** The constraint matrix of the interface solver: linear algebra. *)
From Coq Require Import Reals ZArith Lra Psatz Lia FunctionalExtensionality.
From Verif Require Import Base Options Sum Mat3 PhysModel PhysInst PhysProof2 RiemannModel RConsModel RConsSpec.
Open Scope R_scope.

Lemma mm_assoc n m A B C i j : mm n (mm m A B) C i j = mm m A (mm n B C) i j.
Proof.
  unfold mm. rewrite (rsum_ext n _ (fun k => rsum m (fun l => A i l * B l k * C k j))) by (intros k _; symmetry; apply rsum_scal_r).
  rewrite rsum_swap. apply rsum_ext. intros l _. rewrite <- rsum_scal. apply rsum_ext. intros k _. ring.
Qed.
Lemma mm_l n A A' B i j : (forall k, (k < n)%nat -> A i k = A' i k) -> mm n A B i j = mm n A' B i j.
Proof. intros E. unfold mm. apply rsum_ext. intros k Hk. rewrite E by exact Hk. reflexivity. Qed.
Lemma mm_r n A B B' i j : (forall k, (k < n)%nat -> B k j = B' k j) -> mm n A B i j = mm n A B' i j.
Proof. intros E. unfold mm. apply rsum_ext. intros k Hk. rewrite E by exact Hk. reflexivity. Qed.
Lemma mm_eye_l n B i j : (i < n)%nat -> mm n eye B i j = B i j.
Proof.
  intros Hi. unfold mm, eye. rewrite (rsum_single n i) by (exact Hi || (intros k Hk N; rewrite (proj2 (Nat.eqb_neq i k)) by congruence; ring)).
  rewrite Nat.eqb_refl. ring.
Qed.
Lemma mm_eye_r n B i j : (j < n)%nat -> mm n B eye i j = B i j.
Proof.
  intros Hi. unfold mm, eye. rewrite (rsum_single n j) by (exact Hi || (intros k Hk N; rewrite (proj2 (Nat.eqb_neq k j)) by congruence; ring)).
  rewrite Nat.eqb_refl. ring.
Qed.
Lemma mm_plus_r n A B B' i j : mm n A (fun a b => B a b + B' a b) i j = mm n A B i j + mm n A B' i j.
Proof. unfold mm. rewrite <- rsum_plus. apply rsum_ext. intros; ring. Qed.
Lemma mm_minus_r n A B B' i j : mm n A (fun a b => B a b - B' a b) i j = mm n A B i j - mm n A B' i j.
Proof. unfold mm. rewrite <- rsum_minus. apply rsum_ext. intros; ring. Qed.
Lemma mm_plus_l n A A' B i j : mm n (fun a b => A a b + A' a b) B i j = mm n A B i j + mm n A' B i j.
Proof. unfold mm. rewrite <- rsum_plus. apply rsum_ext. intros; ring. Qed.
Lemma mm_minus_l n A A' B i j : mm n (fun a b => A a b - A' a b) B i j = mm n A B i j - mm n A' B i j.
Proof. unfold mm. rewrite <- rsum_minus. apply rsum_ext. intros; ring. Qed.
Lemma mm_scal_l n c A B i j : mm n (fun a b => c * A a b) B i j = c * mm n A B i j.
Proof. unfold mm. rewrite <- rsum_scal. apply rsum_ext. intros; ring. Qed.
Lemma mm_scal_r n c A B i j : mm n A (fun a b => c * B a b) i j = c * mm n A B i j.
Proof. unfold mm. rewrite <- rsum_scal. apply rsum_ext. intros; ring. Qed.

Lemma cancel_l n A B C i j : inverses n A B -> (i < n)%nat -> mm n B (mm n A C) i j = C i j.
Proof.
  intros I Hi. rewrite <- mm_assoc. rewrite (mm_l n _ eye) by (intros k Hk; apply I; assumption). apply mm_eye_l, Hi.
Qed.
Lemma cancel_r n A B C i j : inverses n A B -> (j < n)%nat -> mm n (mm n C A) B i j = C i j.
Proof.
  intros I Hi. rewrite mm_assoc. rewrite (mm_r n _ _ eye) by (intros k Hk; apply I; assumption). apply mm_eye_r, Hi.
Qed.
Lemma inv_sym n A B : inverses n A B -> inverses n B A.
Proof. intros I i j Hi Hj. destruct (I i j Hi Hj). split; assumption. Qed.
Lemma inv_unique n A B C i j : inverses n A B -> inverses n A C -> (i < n)%nat -> (j < n)%nat -> B i j = C i j.
Proof.
  intros I J Hi Hj. transitivity (mm n B (mm n A C) i j); [|apply cancel_l; assumption].
  rewrite (mm_r n _ _ eye) by (intros k Hk; apply J; assumption). symmetry. apply mm_eye_r, Hj.
Qed.

Lemma woodbury K Sm Pi Pii Th : inverses 3 Pi Pii -> inverses 3 (fun i j => mm 2 Sm K i j - Pi i j) Th ->
  inverses 2 (fun i j => eye i j - mm 3 K (mm 3 Pii Sm) i j) (fun i j => eye i j - mm 3 K (mm 3 Th Sm) i j).
Proof.
  intros IP IT i j Hi Hj.
  assert (T1 : forall a b, (a < 3)%nat -> (b < 3)%nat -> mm 3 (mm 2 Sm K) Th a b = eye a b + mm 3 Pi Th a b).
  { intros a b Ha Hb. destruct (IT a b Ha Hb) as (E & _). rewrite mm_minus_l in E. lra. }
  assert (T2 : forall a b, (a < 3)%nat -> (b < 3)%nat -> mm 3 Th (mm 2 Sm K) a b = eye a b + mm 3 Th Pi a b).
  { intros a b Ha Hb. destruct (IT a b Ha Hb) as (_ & E). rewrite mm_minus_r in E. lra. }
  set (C := mm 3 Pii Sm). set (E := mm 3 Th Sm).
  assert (H1 : forall a, (a < 3)%nat -> mm 2 C (mm 3 K E) a j = C a j + E a j).
  { intros a Ha. unfold C at 1. rewrite mm_assoc.
    transitivity (mm 3 Pii (fun x y => Sm x y + mm 3 Pi E x y) a j).
    - apply mm_r. intros k Hk. rewrite <- mm_assoc. unfold E at 1. rewrite <- mm_assoc.
      rewrite (mm_l 3 _ (fun a b => eye a b + mm 3 Pi Th a b)) by (intros; apply T1; assumption).
      rewrite mm_plus_l, mm_eye_l by exact Hk. f_equal. apply mm_assoc.
    - rewrite mm_plus_r. f_equal. apply cancel_l; assumption. }
  assert (H2 : forall a, (a < 3)%nat -> mm 2 E (mm 3 K C) a j = C a j + E a j).
  { intros a Ha. unfold E at 1. rewrite mm_assoc.
    transitivity (mm 3 Th (mm 3 (mm 2 Sm K) C) a j); [apply mm_r; intros k Hk; symmetry; apply mm_assoc|].
    rewrite <- mm_assoc. rewrite (mm_l 3 _ (fun a b => eye a b + mm 3 Th Pi a b)) by (intros; apply T2; assumption).
    rewrite mm_plus_l, mm_eye_l by exact Ha. f_equal. rewrite mm_assoc. apply mm_r. intros k Hk. unfold C. apply cancel_l; [apply inv_sym, IP|exact Hk]. }
  split.
  - rewrite mm_minus_l, mm_eye_l, mm_minus_r, mm_eye_r by assumption. rewrite mm_assoc.
    rewrite (mm_r 3 K (mm 2 C (mm 3 K E)) (fun x y => C x y + E x y)) by (intros; apply H1; assumption). rewrite mm_plus_r. lra.
  - rewrite mm_minus_l, mm_eye_l, mm_minus_r, mm_eye_r by assumption. rewrite mm_assoc.
    rewrite (mm_r 3 K (mm 2 E (mm 3 K C)) (fun x y => C x y + E x y)) by (intros; apply H2; assumption). rewrite mm_plus_r. lra.
Qed.

(** the inverse of a diagonalised matrix *)
Lemma diag_mul n (l : vec) B i j : (i < n)%nat -> mm n (fun a b => if Nat.eqb a b then l a else 0) B i j = l i * B i j.
Proof.
  intros Hi. unfold mm. rewrite (rsum_single n i) by (exact Hi || (intros k Hk N; rewrite (proj2 (Nat.eqb_neq i k)) by congruence; ring)).
  rewrite Nat.eqb_refl. ring.
Qed.
Lemma diag_mul_r n (l : vec) B i j : (j < n)%nat -> mm n B (fun a b => if Nat.eqb a b then l a else 0) i j = B i j * l j.
Proof.
  intros Hi. unfold mm. rewrite (rsum_single n j) by (exact Hi || (intros k Hk N; rewrite (proj2 (Nat.eqb_neq k j)) by congruence; ring)).
  rewrite Nat.eqb_refl. ring.
Qed.
Definition spec_inv (n : nat) (l : vec) (q qi : mat) : mat := mm n (fun i m => q i m * / l m) qi.
Lemma spec_inv_ok n M l q qi : eigenbasis n M l q -> inverses n q qi -> inverses n M (spec_inv n l q qi).
Proof.
  intros (Lp & _ & E) IQ i j Hi Hj.
  assert (E' : forall i m, (i < n)%nat -> (m < n)%nat -> mm n M q i m = q i m * l m) by (intros a m Ha Hm; unfold mm; rewrite E by assumption; ring).
  assert (QM : forall m j, (m < n)%nat -> (j < n)%nat -> mm n qi M m j = l m * qi m j).
  { intros m k Hm Hk.
    transitivity (mm n (mm n (mm n qi M) q) qi m k); [symmetry; apply cancel_r; assumption|].
    transitivity (mm n (fun a b => if Nat.eqb a b then l a else 0) qi m k); [|apply diag_mul, Hm].
    apply mm_l. intros b Hb. rewrite mm_assoc.
    rewrite (mm_r n qi _ (fun x y => q x y * l y)) by (intros x Hx; apply E'; assumption).
    transitivity (mm n qi q m b * l b); [unfold mm; rewrite <- rsum_scal_r; apply rsum_ext; intros; ring|].
    destruct (IQ m b Hm Hb) as (_ & ->). unfold eye. destruct (Nat.eqb_spec m b) as [->|]; ring. }
  split.
  - unfold spec_inv. rewrite <- mm_assoc.
    rewrite (mm_l n _ q); [apply IQ; assumption|]. intros m Hm.
    transitivity (mm n M q i m * / l m); [unfold mm; rewrite <- rsum_scal_r; apply rsum_ext; intros; ring|].
    rewrite E' by assumption. assert (X := Lp m Hm). field. lra.
  - unfold spec_inv. rewrite mm_assoc. rewrite (mm_r n _ _ (fun x y => l x * qi x y)) by (intros x Hx; apply QM; assumption).
    transitivity (mm n q qi i j); [|apply IQ; assumption].
    unfold mm. apply rsum_ext. intros m Hm. assert (X := Lp m Hm). field. lra.
Qed.
Lemma inv_ext n A A' B : (forall i j, (i < n)%nat -> (j < n)%nat -> A i j = A' i j) -> inverses n A B -> inverses n A' B.
Proof.
  intros E I i j Hi Hj. destruct (I i j Hi Hj) as (E1 & E2). split; [rewrite <- E1; apply mm_l|rewrite <- E2; apply mm_r]; intros k Hk; symmetry; apply E; assumption.
Qed.
Lemma inv_comp n c M N A Ai : c <> 0 -> inverses n M N -> inverses n A Ai ->
  inverses n (fun i j => c * mm n M Ai i j) (fun i j => / c * mm n A N i j).
Proof.
  intros Hc IM IA i j Hi Hj. split.
  - rewrite mm_scal_l, mm_scal_r. rewrite mm_assoc.
    rewrite (mm_r n M _ N) by (intros k Hk; apply cancel_l; assumption). destruct (IM i j Hi Hj) as (-> & _). field. exact Hc.
  - rewrite mm_scal_l, mm_scal_r. rewrite mm_assoc.
    rewrite (mm_r n A _ Ai) by (intros k Hk; apply cancel_l; assumption). destruct (IA i j Hi Hj) as (-> & _). field. exact Hc.
Qed.
Lemma inv_kernel n A B (x : vec) : inverses n A B -> (forall i, (i < n)%nat -> rsum n (fun j => A i j * x j) = 0) -> forall j, (j < n)%nat -> x j = 0.
Proof.
  intros I H j Hj. transitivity (mm n B (mm n A (fun k _ => x k)) j 0%nat); [symmetry; apply (cancel_l n A B (fun k _ => x k)); assumption|].
  unfold mm. apply rsum_zero. intros k Hk. rewrite H by exact Hk. ring.
Qed.

Section Cons.
Variable o : options.
Variable P : par.
Variable sm : vec -> R * R * R.
Variable inverse : nat -> mat -> mat.
Variable qrsolve : nat -> mat -> mat -> mat.
Variable eigensolve : nat -> mat -> vec * mat.
Hypothesis INV : inverse_ok inverse.
Hypothesis SOL : solve_ok qrsolve.
Hypothesis VI : VISCOUS o = true.
Variable Q : vec.
Notation n1 := (n1 o).
Notation r := (Q 0%nat).
Notation p := (pressure o P sm Q).
Notation X1 := (Xi1 o P r p Q 0).
Notation X2 := (Xi2 o P sm r p Q 0).
Notation Xi := (mm 5 X1 X2).
Notation l := (fst (eigensolve n1 Xi)).
Notation q := (snd (eigensolve n1 Xi)).
Hypothesis HR : r <> 0.
Hypothesis HA : invertible 3 (get_A Q).
Hypothesis HP : THERMAL o = false -> invertible 3 (dsigmadA_dir P Q 0).
Hypothesis EB : eigenbasis n1 Xi l q.
Notation Ai := (inverse 3 (get_A Q)).
Notation tmp := (cons_tmp o P sm inverse Q).
Lemma IA : inverses 3 (get_A Q) Ai. Proof. apply INV, HA. Qed.
Lemma IQ : inverses n1 q (inverse n1 q). Proof. apply INV, EB. Qed.
Definition Xinv : mat := spec_inv n1 l q (inverse n1 q).
Lemma IX : inverses n1 Xi Xinv. Proof. apply spec_inv_ok; [exact EB|exact IQ]. Qed.

Lemma tmp_top i j : (i < n1)%nat -> (j < 5)%nat -> tmp i j = r * X1 i j.
Proof.
  intros Hi Hj. unfold cons_tmp, Xi1, setblock, zero_mat. rewrite VI. unfold RiemannModel.n1 in Hi.
  destruct (THERMAL o); cbn [b2n] in Hi;
    (destruct i as [|[|[|[|i]]]]; try lia); (destruct j as [|[|[|[|[|j]]]]]; try lia); cbn [Nat.leb Nat.ltb Nat.add Nat.sub andb]; field; exact HR.
Qed.

Definition Bm : mat := fun b j => X2 b j.
Lemma X2_A a j : (a < 3)%nat -> (j < 3)%nat -> X2 (2 + a)%nat j = get_A Q a j.
Proof.
  intros Ha Hj. unfold Xi2, addblock, setblock. rewrite VI.
  destruct (THERMAL o); (destruct a as [|[|[|a]]]; try lia); (destruct j as [|[|[|j]]]; try lia); cbn [Nat.leb Nat.ltb Nat.add Nat.sub andb]; reflexivity.
Qed.
Lemma X2_0 j : X2 0%nat j = if Nat.eqb j 0 then r else 0.
Proof.
  unfold Xi2, addblock, setblock. rewrite VI. destruct (THERMAL o); destruct j as [|j]; cbn [Nat.leb Nat.ltb Nat.add Nat.sub Nat.eqb andb]; ring.
Qed.

(** ** without heat conduction *)
Definition Kmat : mat := mm 3 X2 Ai.
Definition Smat : mat := fun i j => if Nat.eqb j 0 then - dsigmadrho P Q 0 i else if Nat.eqb i 0 then 1 else 0.
Lemma rXi_split i j : (i < 3)%nat -> r * Xi i j = mm 2 Smat X2 i j - mm 3 (dsigmadA_dir P Q 0) (fun a b => X2 (2 + a)%nat b) i j.
Proof.
  intros Hi. rewrite <- mm_scal_l.
  assert (T : forall k, (k < 5)%nat -> r * X1 i k = if Nat.ltb k 2 then Smat i k else - dsigmadA_dir P Q 0 i (k - 2)%nat).
  { intros k Hk. unfold Xi1, setblock, Smat. rewrite VI.
    destruct (THERMAL o); idx3 i; (destruct k as [|[|[|[|[|k]]]]]; try lia); cbn [Nat.leb Nat.ltb Nat.add Nat.sub Nat.eqb andb]; field; exact HR. }
  unfold mm. cbn [rsum]. rewrite !T by lia. cbn [Nat.ltb Nat.leb Nat.sub Nat.add]. ring.
Qed.
Hypothesis TH0 : THERMAL o = false.
Lemma SK i j : (i < 3)%nat -> (j < 3)%nat -> r * mm 3 Xi Ai i j = mm 2 Smat Kmat i j - dsigmadA_dir P Q 0 i j.
Proof.
  intros Hi Hj. rewrite <- mm_scal_l. rewrite (mm_l 3 _ (fun a b => mm 2 Smat X2 a b - mm 3 (dsigmadA_dir P Q 0) (fun a b => X2 (2 + a)%nat b) a b)) by (intros k Hk; apply rXi_split, Hi).
  rewrite mm_minus_l. f_equal; [apply mm_assoc|]. rewrite mm_assoc. rewrite (mm_r 3 _ _ eye); [apply mm_eye_r, Hj|].
  intros k Hk. rewrite (mm_l 3 _ (get_A Q)) by (intros m Hm; apply X2_A; assumption). apply IA; assumption.
Qed.

Notation Pii := (inverse 3 (dsigmadA_dir P Q 0)).
Definition Zmat : mat := fun i j => eye i j - mm 3 Kmat (mm 3 Pii Smat) i j.
Lemma Zmat_inv : invertible 2 Zmat.
Proof.
  eexists. apply (woodbury Kmat Smat (dsigmadA_dir P Q 0) Pii (fun i j => / r * mm 3 (get_A Q) Xinv i j)).
  - apply INV, HP, TH0.
  - apply (inv_ext 3 (fun i j => r * mm 3 Xi Ai i j)); [intros; apply SK; assumption|].
    assert (I := IX). unfold RiemannModel.n1 in I. rewrite TH0 in I. cbn [b2n Nat.add] in I. apply inv_comp; [exact HR|exact I|exact IA].
Qed.
Lemma tmp_low : exists Zi, inverses 2 Zmat Zi /\
  forall i j, (i < 2)%nat -> (j < 5)%nat -> tmp (3 + i)%nat j = mm 2 Zi (fun a b => if Nat.ltb b 2 then eye a b else - Kmat a (b - 2)%nat) i j.
Proof.
  set (B := addblock (setblock (setblock zero_mat 0 0 1 1 (fun _ _ => r)) 1 0 1 3 (fun _ j => sigma_col P Q 0 j - r * dsigmadrho P Q 0 j)) 1 0 1 1 (fun _ _ => r * c_0 o P sm Q * c_0 o P sm Q)).
  assert (BX : forall i j, (i < 2)%nat -> (j < 3)%nat -> B i j = X2 i j).
  { intros i j Hi Hj. unfold B, Xi2, addblock, setblock, zero_mat. rewrite VI, TH0. (destruct i as [|[|i]]; [| |lia]); idx3 j; cbn [Nat.leb Nat.ltb Nat.add Nat.sub Nat.eqb andb]; ring. }
  assert (BK : forall i j, (i < 2)%nat -> mm 3 B Ai i j = Kmat i j) by (intros i j Hi; apply mm_l; intros k Hk; apply BX; assumption).
  set (Zm := fun i j : nat => eye i j - mm 3 (mm 3 B Ai) (mm 3 Pii Smat) i j).
  assert (ZE : forall i j, (i < 2)%nat -> (j < 2)%nat -> Zmat i j = Zm i j).
  { intros i j Hi Hj. unfold Zm, Zmat. f_equal. apply mm_l. intros k Hk. symmetry. apply BK, Hi. }
  exists (inverse 2 Zm). split.
  - apply (inv_ext 2 Zm); [intros; symmetry; apply ZE; assumption|]. apply INV. destruct Zmat_inv as (N & HN). exists N.
    exact (inv_ext 2 Zmat Zm N ZE HN).
  - intros i j Hi Hj. unfold cons_tmp. rewrite TH0. cbv zeta. fold B. fold Smat. change (fun i j : nat => eye i j - mm 3 (mm 3 B Ai) (mm 3 Pii Smat) i j) with Zm.
    transitivity (mm 2 (inverse 2 Zm) (fun i j => if Nat.ltb j 2 then eye i j else - mm 3 B Ai i (j - 2)%nat) i j).
    + unfold setblock at 1. replace ((Nat.leb 3 (3 + i) && Nat.ltb (3 + i) (3 + 2) && Nat.leb 0 j && Nat.ltb j (0 + 5))%bool) with true.
      * replace (3 + i - 3)%nat with i by lia. rewrite Nat.sub_0_r. reflexivity.
      * symmetry. rewrite !Bool.andb_true_iff. repeat split; solve [apply Nat.leb_le; lia|apply Nat.ltb_lt; lia].
    + apply mm_r. intros k Hk. destruct (Nat.ltb j 2); [reflexivity|]. f_equal. apply BK. exact Hk.
Qed.
Lemma n1_3 : n1 = 3%nat. Proof. unfold RiemannModel.n1. rewrite TH0. reflexivity. Qed.
(** rows 3, 4 say that the change of (rho, p) is the one an adiabatic motion would make *)
Lemma low_zero (x : vec) : (forall i, (i < 2)%nat -> rsum 5 (fun j => tmp (3 + i)%nat j * x j) = 0) <->
  forall b, (b < 2)%nat -> x b = rsum 3 (fun j => Kmat b j * x (2 + j)%nat).
Proof.
  destruct tmp_low as (Zi & IZ & TL).
  set (z := fun a : nat => x a - rsum 3 (fun j => Kmat a j * x (2 + j)%nat)).
  assert (E : forall i, (i < 2)%nat -> rsum 5 (fun j => tmp (3 + i)%nat j * x j) = rsum 2 (fun a => Zi i a * z a)).
  { intros i Hi. rewrite (rsum_ext 5 _ (fun j => mm 2 Zi (fun a b => if Nat.ltb b 2 then eye a b else - Kmat a (b - 2)%nat) i j * x j)) by (intros j Hj; rewrite TL by assumption; reflexivity).
    unfold z, mm, eye. cbn [rsum Nat.ltb Nat.leb Nat.sub Nat.add Nat.eqb]. ring. }
  split.
  - intros H b Hb. enough (Z0 : z b = 0) by (unfold z in Z0; lra).
    apply (inv_kernel 2 Zi Zmat z (inv_sym _ _ _ IZ)); [|exact Hb]. intros i Hi. rewrite <- E by exact Hi. apply H, Hi.
  - intros H i Hi. rewrite E by exact Hi. apply rsum_zero. intros a Ha. unfold z. rewrite (H a Ha) at 1. ring.
Qed.
Lemma kx u b : (b < 2)%nat -> rsum 3 (fun j => Kmat b j * rsum 3 (fun k => get_A Q j k * u k)) = rsum 3 (fun k => X2 b k * u k).
Proof.
  intros Hb. transitivity (mm 3 Kmat (mm 3 (get_A Q) (fun k _ => u k)) b 0%nat); [reflexivity|]. rewrite <- mm_assoc. unfold Kmat.
  transitivity (mm 3 X2 (fun k _ => u k) b 0%nat); [|reflexivity]. apply mm_l. intros k Hk. apply cancel_r; [apply inv_sym, IA|exact Hk].
Qed.
(** the vectors (rho, p, A e1) in the kernel of rows 3, 4 are those of the form Xi2 u *)
Lemma low_image (x : vec) : (forall i, (i < 2)%nat -> rsum 5 (fun j => tmp (3 + i)%nat j * x j) = 0) ->
  exists u : vec, forall i, (i < 5)%nat -> x i = rsum 3 (fun k => X2 i k * u k).
Proof.
  intros H. assert (K := proj1 (low_zero x) H). set (u := fun j => rsum 3 (fun k => Ai j k * x (2 + k)%nat)). exists u.
  assert (AU : forall j, (j < 3)%nat -> rsum 3 (fun k => get_A Q j k * u k) = x (2 + j)%nat).
  { intros j Hj. unfold u. transitivity (mm 3 (get_A Q) (mm 3 Ai (fun k _ => x (2 + k)%nat)) j 0%nat); [reflexivity|]. 
    apply (cancel_l 3 Ai (get_A Q) (fun k _ => x (2 + k)%nat)); [apply inv_sym, IA|exact Hj]. }
  intros i Hi. destruct (le_lt_dec 2 i) as [G|L].
  - destruct i as [|[|i]]; [lia|lia|]. change (S (S i)) with (2 + i)%nat. rewrite <- AU by lia. apply rsum_ext. intros k Hk.
    rewrite X2_A by lia. reflexivity.
  - rewrite K by exact L. rewrite <- kx by exact L. apply rsum_ext. intros j Hj. rewrite AU by exact Hj. reflexivity.
Qed.
Lemma low_X2 (u : vec) i : (i < 2)%nat -> rsum 5 (fun j => tmp (3 + i)%nat j * rsum 3 (fun k => X2 j k * u k)) = 0.
Proof.
  intros Hi. revert i Hi. apply (proj2 (low_zero (fun j => rsum 3 (fun k => X2 j k * u k)))). intros b Hb. rewrite <- kx by exact Hb.
  apply rsum_ext. intros j Hj. f_equal. apply rsum_ext. intros k Hk. rewrite X2_A by assumption. reflexivity.
Qed.
End Cons.
