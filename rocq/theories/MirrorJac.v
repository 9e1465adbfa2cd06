(** C94: the Jacobians of the code under the reflection. *)
From Coq Require Import Reals Lia Lra ZArith FunctionalExtensionality.
From Verif Require Import Base Options Sum Mat3 EqModel FvModel FvBody GridModel PhysModel PhysInst PhysProof2 WenoModel UtilsProof RefSpec MirrorSpec MirrorProof2 MirrorProof3 MirrorProof5.
Import List ListNotations.
Open Scope R_scope.

Section Jac.
Variable o : options.
Variable P : par.
Variable solve_multi : vec -> R * R * R.
Notation T := (mirror o).
Notation MP := (prm P).
Notation sg := (sign o).
Hypothesis HM : MULTI o = false.
Hypothesis HV : VISCOUS o = true.
Hypothesis HPM : PMULTI P = false.
Hypothesis HR : Z.ltb (-1) (REACTION P) = false.

Definition like (s : R) (M' M : mat) : Prop := forall a b, M' a b = s * (sg a * sg b * M a b).
Lemma setblock_like s M' M r c n m f' f : like s M' M -> (forall i j, (i < n)%nat -> (j < m)%nat -> f' i j = s * (sg (r + i) * sg (c + j) * f i j)) -> like s (setblock M' r c n m f') (setblock M r c n m f).
Proof using.
  intros H Hf a b. unfold setblock. destruct (Nat.leb_spec r a), (Nat.ltb_spec a (r + n)), (Nat.leb_spec c b), (Nat.ltb_spec b (c + m)); cbn [andb]; try apply H.
  rewrite Hf by lia. repeat f_equal; lia.
Qed.
Lemma addblock_like s M' M r c n m f' f : like s M' M -> (forall i j, (i < n)%nat -> (j < m)%nat -> f' i j = s * (sg (r + i) * sg (c + j) * f i j)) -> like s (addblock M' r c n m f') (addblock M r c n m f).
Proof using.
  intros H Hf a b. unfold addblock. rewrite (H a b). destruct (Nat.leb_spec r a), (Nat.ltb_spec a (r + n)), (Nat.leb_spec c b), (Nat.ltb_spec b (c + m)); cbn [andb]; try ring.
  rewrite Hf by lia. replace (r + (a - r))%nat with a by lia. replace (c + (b - c))%nat with b by lia. ring.
Qed.
Lemma like_zero s : like s (fun _ _ => 0) (fun _ _ => 0).
Proof using. intros a b. ring. Qed.
Lemma sign_sq k : sg k * sg k = 1.
Proof using. unfold sign. do 15 (destruct k as [|k]; [destruct (THERMAL o); ring|]). destruct k; ring. Qed.
Lemma like_one : like 1 (fun i j => if Nat.eqb i j then 1 else 0) (fun i j => if Nat.eqb i j then 1 else 0).
Proof using. intros a b. destruct (Nat.eqb_spec a b) as [->|]; [rewrite sign_sq|]; ring. Qed.

Lemma dEdrho_mirror q : dEdrho o P solve_multi (T q) = dEdrho o P solve_multi q.
Proof using HPM HR. unfold dEdrho. rewrite HPM, at0, pressure_mirror, dev_mirror; auto. Qed.
Lemma dEdp_mirror q : dEdp o P solve_multi (T q) = dEdp o P solve_multi q.
Proof using HPM. unfold dEdp. rewrite HPM, at0. reflexivity. Qed.
Lemma dEdA_full_mirror q i j : (i < 3)%nat -> (j < 3)%nat -> dEdA P (T q) i j = flip3 i * flip3 j * dEdA P q i j.
Proof using. intros Hi Hj. unfold dEdA, mscal. rewrite at0, AdevG_mirror by assumption. ring. Qed.
Lemma dEdJ_mirror q i : (i < 3)%nat -> THERMAL o = true -> dEdJ P (T q) i = flip3 i * dEdJ P q i.
Proof using. intros Hi HT. unfold dEdJ. rewrite rhoJ_mirror, at0 by assumption. unfold Rdiv. ring. Qed.
Lemma dsA_mirror q cs k m n : (k < 3)%nat -> (m < 3)%nat -> (n < 3)%nat ->
  dsigmadA (q 0%nat) cs (get_A (T q)) (mmul (mtr (get_A (T q))) (get_A (T q))) (AdevG (get_A (T q))) 0 k m n = - (flip3 k * (flip3 m * flip3 n)) * dsigmadA (q 0%nat) cs (get_A q) (mmul (mtr (get_A q)) (get_A q)) (AdevG (get_A q)) 0 k m n.
Proof using.
  intros Hk Hm Hn. unfold dsigmadA, mmul, mtr, sum3. rewrite !AdevG_mirror, !A_mirror by lia.
  destruct k as [|[|[|k]]]; try lia; (destruct m as [|[|[|m]]]; try lia); (destruct n as [|[|[|n]]]; try lia); cbn [flip3 Nat.eqb]; field.
Qed.

Ltac ix i := first [assert (i = 0%nat) by lia; subst i | destruct i as [|[|[|i]]]; [| | |exfalso; lia] | destruct i as [|[|[|[|[|[|[|[|[|i]]]]]]]]]; [..|exfalso; lia]].
Ltac block := intros i j Hi Hj; ix i; ix j; cbn [Nat.add Nat.div Nat.modulo Nat.divmod Nat.sub fst snd].

Lemma dPdQ_mirror q : like 1 (dPdQ o P solve_multi (T q)) (dPdQ o P solve_multi q).
Proof using HM HV HPM HR.
  assert (Hv : forall i, (i < 3)%nat -> get_rhov (T q) i = flip3 i * get_rhov q i) by (intros; apply rhov_mirror; assumption).
  assert (HD : dot3 (fun i => get_rhov (T q) i / q 0%nat) (fun i => get_rhov (T q) i / q 0%nat) = dot3 (fun i => get_rhov q i / q 0%nat) (fun i => get_rhov q i / q 0%nat)).
  { unfold dot3, sum3. rewrite !Hv by lia. cbn [flip3]. unfold Rdiv. ring. }
  unfold dPdQ. rewrite HM, HV, dEdrho_mirror, dEdp_mirror, at0, at1, HD. destruct (THERMAL o) eqn:HE.
  - assert (HJ : forall i, (i < 3)%nat -> get_rhoJ (T q) i = flip3 i * get_rhoJ q i) by (intros; apply rhoJ_mirror; assumption).
    assert (HDJ : dot3 (fun i => get_rhoJ (T q) i / q 0%nat) (fun i => get_rhoJ (T q) i / q 0%nat) = dot3 (fun i => get_rhoJ q i / q 0%nat) (fun i => get_rhoJ q i / q 0%nat)).
    { unfold dot3, sum3. rewrite !HJ by lia. cbn [flip3]. unfold Rdiv. ring. }
    rewrite HDJ. cbv zeta. repeat (apply setblock_like || apply like_one); block; rewrite ?Hv, ?HJ, ?dEdA_full_mirror, ?dEdJ_mirror by (assumption || lia); unfold sign; rewrite ?HE; cbn [flip3]; unfold Rdiv; ring.
  - cbv zeta. repeat (apply setblock_like || apply like_one); block; rewrite ?Hv, ?dEdA_full_mirror by (assumption || lia); unfold sign; rewrite ?HE; cbn [flip3]; unfold Rdiv; ring.
Qed.
Lemma dFdP_mirror q : like (-1) (dFdP o P solve_multi (T q) 0) (dFdP o P solve_multi q 0).
Proof using HM HV HPM HR.
  assert (Hv : forall i, (i < 3)%nat -> get_rhov (T q) i = flip3 i * get_rhov q i) by (intros; apply rhov_mirror; assumption).
  assert (HD : dot3 (dsigmadrho P (T q) 0) (fun i => get_rhov (T q) i / q 0%nat) = - dot3 (dsigmadrho P q 0) (fun i => get_rhov q i / q 0%nat)).
  { unfold dot3, sum3. rewrite !Hv, !dsigmadrho_mirror by lia. cbn [flip3]. unfold Rdiv. ring. }
  unfold dFdP. rewrite HM, HV, dEdrho_mirror, dEdp_mirror, pressure_mirror, at0, at1, HD by assumption. destruct (THERMAL o) eqn:HE.
  - assert (HJ : forall i, (i < 3)%nat -> get_rhoJ (T q) i = flip3 i * get_rhoJ q i) by (intros; apply rhoJ_mirror; assumption).
    cbv zeta. repeat (apply setblock_like || apply addblock_like || apply like_zero); block;
      rewrite ?Hv, ?HJ, ?dsA_mirror, ?dsigmadrho_mirror, ?sigma_col_mirror, ?A_mirror, ?dEdA_full_mirror, ?dEdJ_mirror by (assumption || lia); unfold sign; rewrite ?HE; cbn [flip3]; unfold Rdiv; ring.
  - cbv zeta. repeat (apply setblock_like || apply addblock_like || apply like_zero); block;
      rewrite ?Hv, ?dsA_mirror, ?dsigmadrho_mirror, ?sigma_col_mirror, ?A_mirror, ?dEdA_full_mirror by (assumption || lia); unfold sign; rewrite ?HE; cbn [flip3]; unfold Rdiv; ring.
Qed.
Lemma jacobian_mirror q a b : jacobian_product o P solve_multi (T q) 0 a b = - (sg a * sg b * jacobian_product o P solve_multi q 0 a b).
Proof using HM HV HPM HR.
  unfold jacobian_product. rewrite <- (rsum_scal (V o) (sg a * sg b)). rewrite <- rsum_opp. apply rsum_ext. intros k Hk. rewrite (dFdP_mirror q a k), (dPdQ_mirror q k b).
  transitivity (- (sg a * sg b * (sg k * sg k) * (dFdP o P solve_multi q 0 a k * dPdQ o P solve_multi q k b))); [ring|]. rewrite sign_sq. ring.
Qed.

(** ** the absolute value of a matrix *)
(** Eigen's |M| x of the code: M = R diag(l) L with L the inverse of R gives R diag(|l|) L x *)
Definition spectral (n : nat) (M : EqModel.mat) (Rt L : mat) (l : vec) : Prop :=
  (forall i j, (i < n)%nat -> (j < n)%nat -> M i j = rsum n (fun k => Rt i k * (l k * L k j))) /\
  (forall i j, (i < n)%nat -> (j < n)%nat -> rsum n (fun k => Rt i k * L k j) = if Nat.eqb i j then 1 else 0) /\
  (forall i j, (i < n)%nat -> (j < n)%nat -> rsum n (fun k => L i k * Rt k j) = if Nat.eqb i j then 1 else 0).
Definition absolute (n : nat) (Rt L : mat) (l x : vec) (i : nat) : R := rsum n (fun k => Rt i k * (Rabs (l k) * rsum n (fun j => L k j * x j))).
Lemma rsum_delta n i (f : nat -> R) : (i < n)%nat -> rsum n (fun k => (if Nat.eqb i k then 1 else 0) * f k) = f i.
Proof using.
  intros Hi. rewrite (rsum_single n i); [rewrite Nat.eqb_refl; ring|exact Hi|]. intros k Hk Hn. destruct (Nat.eqb_spec i k); [lia|ring].
Qed.
(** it does not depend on the decomposition found *)
Lemma absolute_unique n M Rt L l Rt' L' l' x i : spectral n M Rt L l -> spectral n M Rt' L' l' -> (i < n)%nat -> absolute n Rt L l x i = absolute n Rt' L' l' x i.
Proof using.
  intros (HM1 & RL & LR) (HM2 & RL' & LR') Hi.
  set (C := fun a b => rsum n (fun k => L' a k * Rt k b)).
  (** L' M R two ways *)
  assert (X : forall a b, (a < n)%nat -> (b < n)%nat -> l' a * C a b = C a b * l b).
  { intros a b Ha Hb. transitivity (rsum n (fun i => rsum n (fun j => L' a i * M i j * Rt j b))).
    - transitivity (rsum n (fun j => (l' a * L' a j) * Rt j b)); [unfold C; rewrite <- rsum_scal; apply rsum_ext; intros; ring|].
      rewrite rsum_swap. apply rsum_ext. intros j Hj. rewrite rsum_scal_r. f_equal.
      transitivity (rsum n (fun k => rsum n (fun i => L' a i * Rt' i k) * (l' k * L' k j))).
      + rewrite (rsum_ext n _ (fun k => (if Nat.eqb a k then 1 else 0) * (l' k * L' k j))); [rewrite rsum_delta by exact Ha; reflexivity|]. intros k Hk. rewrite LR' by assumption. reflexivity.
      + rewrite (rsum_ext n _ (fun k => rsum n (fun i => L' a i * (Rt' i k * (l' k * L' k j))))); [|intros k Hk; rewrite <- rsum_scal_r; apply rsum_ext; intros; ring].
        rewrite rsum_swap. apply rsum_ext. intros i0 Hi0. rewrite (HM2 i0 j) by assumption. rewrite <- rsum_scal. reflexivity.
    - transitivity (rsum n (fun i => L' a i * (Rt i b * l b))); [|unfold C; rewrite <- rsum_scal_r; apply rsum_ext; intros; ring].
      apply rsum_ext. intros i0 Hi0. rewrite (rsum_ext n _ (fun j => L' a i0 * (M i0 j * Rt j b))) by (intros; ring). rewrite rsum_scal. f_equal.
      transitivity (rsum n (fun k => Rt i0 k * (l k * rsum n (fun j => L k j * Rt j b)))).
      + rewrite (rsum_ext n _ (fun j => rsum n (fun k => Rt i0 k * (l k * L k j) * Rt j b))); [|intros j Hj; rewrite (HM1 i0 j) by assumption; rewrite <- rsum_scal_r; reflexivity].
        rewrite rsum_swap. apply rsum_ext. intros k Hk. rewrite <- !rsum_scal. apply rsum_ext. intros. ring.
      + rewrite (rsum_ext n _ (fun k => (if Nat.eqb b k then 1 else 0) * (Rt i0 k * l k))); [rewrite rsum_delta by exact Hb; reflexivity|]. intros k Hk. rewrite LR by assumption. rewrite (Nat.eqb_sym k b). destruct (Nat.eqb b k); ring. }
  assert (Y : forall a b, (a < n)%nat -> (b < n)%nat -> Rabs (l' a) * C a b = C a b * Rabs (l b)).
  { intros a b Ha Hb. specialize (X a b Ha Hb). destruct (Req_dec (C a b) 0) as [E|E]; [rewrite E; ring|]. assert (l' a = l b) as -> by nra. ring. }
  (** |M| = R' C |l| L = R' |l'| C L *)
  set (y := fun k => rsum n (fun j => L k j * x j)).
  assert (B1 : forall i, (i < n)%nat -> forall b, (b < n)%nat -> Rt i b = rsum n (fun a => Rt' i a * C a b)).
  { intros i0 Hi0 b Hb. unfold C. rewrite (rsum_ext n _ (fun a => rsum n (fun k => Rt' i0 a * L' a k * Rt k b))) by (intros; rewrite <- rsum_scal; apply rsum_ext; intros; ring).
    rewrite rsum_swap. rewrite (rsum_ext n _ (fun k => (if Nat.eqb i0 k then 1 else 0) * Rt k b)); [rewrite rsum_delta by exact Hi0; reflexivity|]. intros k Hk. rewrite rsum_scal_r, RL' by assumption. reflexivity. }
  assert (B2 : forall a, (a < n)%nat -> rsum n (fun b => C a b * y b) = rsum n (fun j => L' a j * x j)).
  { intros a Ha. unfold C, y. rewrite (rsum_ext n _ (fun b => rsum n (fun k => L' a k * (Rt k b * rsum n (fun j => L b j * x j))))) by (intros; rewrite <- rsum_scal_r; apply rsum_ext; intros; ring).
    rewrite rsum_swap. apply rsum_ext. intros k Hk. rewrite rsum_scal. f_equal.
    rewrite (rsum_ext n _ (fun b => rsum n (fun j => Rt k b * L b j * x j))) by (intros; rewrite <- rsum_scal; apply rsum_ext; intros; ring). rewrite rsum_swap.
    rewrite (rsum_ext n _ (fun j => (if Nat.eqb k j then 1 else 0) * x j)); [apply rsum_delta, Hk|]. intros j Hj. rewrite rsum_scal_r, RL by assumption. reflexivity. }
  unfold absolute. transitivity (rsum n (fun b => rsum n (fun a => Rt' i a * (Rabs (l' a) * (C a b * y b))))).
  - apply rsum_ext. intros b Hb. fold (y b). rewrite (B1 i Hi b Hb), <- rsum_scal_r. apply rsum_ext. intros a Ha. rewrite <- (Rmult_assoc (Rabs (l' a))), (Y a b Ha Hb). ring.
  - rewrite rsum_swap. apply rsum_ext. intros a Ha. rewrite rsum_scal. f_equal. rewrite rsum_scal. f_equal. apply B2, Ha.
Qed.
(** the reflection of a diagonalisable matrix is diagonalisable *)
Lemma spectral_mirror n M M' Rt L l : spectral n M Rt L l -> (forall a b, M' a b = - (sg a * sg b * M a b)) -> spectral n M' (fun i k => sg i * Rt i k) (fun k j => L k j * sg j) (fun k => - l k).
Proof using.
  intros (H1 & H2 & H3) E. split; [|split]; intros i j Hi Hj.
  - rewrite E, H1 by assumption. rewrite <- rsum_scal, <- rsum_opp. apply rsum_ext. intros. ring.
  - rewrite (rsum_ext n _ (fun k => (sg i * sg j) * (Rt i k * L k j))) by (intros; ring). rewrite rsum_scal, H2 by assumption. destruct (Nat.eqb_spec i j) as [->|]; [rewrite sign_sq|]; ring.
  - rewrite <- (H3 i j Hi Hj). apply rsum_ext. intros k Hk. transitivity (L i k * Rt k j * (sg k * sg k)); [ring|rewrite sign_sq; ring].
Qed.
(** A solver that is right about diagonalisable matrices has the symmetry asked of it there. *)
Lemma right_abs_mirror (eigabs : EqModel.mat -> vec -> vec) n : (forall M Rt L l x, spectral n M Rt L l -> forall k, eigabs M x k = if Nat.ltb k n then absolute n Rt L l x k else 0) ->
  forall M M' x, (exists Rt L l, spectral n M Rt L l) -> (forall a b, M' a b = - (sg a * sg b * M a b)) -> eigabs M' (fun k => - (sg k * x k)) = fun k => - (sg k * eigabs M x k).
Proof using.
  intros H M M' x (Rt & L & l & S) E. apply functional_extensionality. intros k. rewrite (H _ _ _ _ x S), (H _ _ _ _ (fun k => - (sg k * x k)) (spectral_mirror n M M' Rt L l S E)).
  destruct (Nat.ltb k n); [|ring]. unfold absolute. rewrite <- rsum_scal, <- rsum_opp. apply rsum_ext. intros i Hi. rewrite Rabs_Ropp.
  rewrite (rsum_ext n _ (fun j => - (L i j * x j))); [rewrite rsum_opp; ring|]. intros j Hj. transitivity (- (L i j * x j * (sg j * sg j))); [ring|rewrite sign_sq; ring].
Qed.
End Jac.
