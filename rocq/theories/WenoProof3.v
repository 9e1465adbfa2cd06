(** Oscillation indicator, stencil selection, and the two sweeps. *)
From Coq Require Import Reals Lra List Lia ZArith.
From Coquelicot Require Import Coquelicot.
From Verif Require Import Base Options Sum PolyModel PolyProof LegendreProof2 WenoModel WenoSpec WenoProof WenoProof2.
Import List ListNotations.
Open Scope R_scope.
Local Notation combine := WenoModel.combine.

(** ** selection *)
Definition enough (N : nat) (nx gap : nat) : Prop :=
  (2 * gap <= nx + (if Nat.even N then 2 * FN2 N else FN2 N))%nat.

Lemma FN2_small N : (N <= 2)%nat -> FN2 N = 0%nat.
Proof. intros H. do 3 (destruct N as [|N]; [reflexivity|]). lia. Qed.

Lemma selected_ok N nx gap ind : (ind < nx)%nat -> enough N nx gap -> selected N (Z.of_nat nx) (Z.of_nat gap) (Z.of_nat ind) <> [].
Proof.
  intros Hi He C. unfold enough in He. unfold selected in C.
  destruct (Z.leb_spec (Z.of_nat gap) (Z.of_nat ind)); [discriminate|].
  destruct (Z.leb_spec (Z.of_nat ind) (Z.of_nat nx - Z.of_nat gap - 1)); [discriminate|]. cbn [app] in C.
  destruct (Nat.ltb_spec 2 N) as [L|L].
  - destruct (Z.leb_spec (Z.of_nat gap) (Z.of_nat ind + Z.of_nat (FN2 N))); [discriminate|]. cbn [app] in C.
    destruct (Nat.even N); cbn [andb] in C.
    + destruct (Z.leb_spec (Z.of_nat ind - Z.of_nat (FN2 N)) (Z.of_nat nx - Z.of_nat gap - 1)); [discriminate|]. lia.
    + lia.
  - rewrite FN2_small in He by lia. destruct (Nat.even N); lia.
Qed.

Lemma selected_short N nx gap : (FN2 N < gap)%nat -> (0 < nx)%nat -> ~ enough N nx gap ->
  exists ind, (ind < nx)%nat /\ selected N (Z.of_nat nx) (Z.of_nat gap) (Z.of_nat ind) = [].
Proof.
  intros Hg Hn He. unfold enough in He.
  assert (T : forall ind, (ind < gap)%nat -> (nx < ind + gap + 1)%nat -> (ind + FN2 N < gap \/ N <= 2)%nat ->
     (Nat.even N = false \/ (nx + FN2 N < ind + gap + 1)%nat \/ (N <= 2)%nat) -> selected N (Z.of_nat nx) (Z.of_nat gap) (Z.of_nat ind) = []).
  { intros ind A B C D. unfold selected.
    destruct (Z.leb_spec (Z.of_nat gap) (Z.of_nat ind)); [lia|].
    destruct (Z.leb_spec (Z.of_nat ind) (Z.of_nat nx - Z.of_nat gap - 1)); [lia|]. cbn [app].
    destruct (Nat.ltb_spec 2 N) as [L|L]; [|reflexivity].
    destruct (Z.leb_spec (Z.of_nat gap) (Z.of_nat ind + Z.of_nat (FN2 N))); [lia|]. cbn [app].
    destruct D as [D|[D|D]]; [rewrite D; reflexivity| |lia].
    destruct (Z.leb_spec (Z.of_nat ind - Z.of_nat (FN2 N)) (Z.of_nat nx - Z.of_nat gap - 1)); [lia|]. now rewrite Bool.andb_false_r. }
  destruct (Nat.even N) eqn:Ev.
  - exists (nx + FN2 N - gap)%nat. split; [lia|]. apply T; lia.
  - exists (nx - gap)%nat. split; [lia|]. apply T; try lia.
Qed.

(** ** oscillation indicator *)
Definition gram (basis : nat -> poly) (i j a : nat) : R :=
  RInt (fun t => Derive_n (evaluate (basis i)) a t * Derive_n (evaluate (basis j)) a t) 0 1.

Lemma gram_val (basis : nat -> poly) i j a p q pq : diff a (basis i) = Ok p -> diff a (basis j) = Ok q -> multiply p q = Ok pq ->
  evaluate (integrate pq) 1 - evaluate (integrate pq) 0 = gram basis i j a.
Proof.
  intros Ep Eq Em. unfold gram. symmetry. apply is_RInt_unique.
  eapply (@is_RInt_ext R_NormedModule); [|apply integrate_RInt]. intros x _.
  rewrite (diff_derive _ _ _ Ep), (diff_derive _ _ _ Eq). apply (multiply_eval _ _ _ x Em).
Qed.

Lemma osc_inner N (basis : nat -> poly) i j : (1 <= N)%nat -> (forall k, (k < N)%nat -> length (basis k) = N) -> (i < N)%nat -> (j < N)%nat ->
  forall b c, (i * N + j < blen b)%nat -> bdat b (i * N + j)%nat = Some c ->
  exists b', for_loop (N - 1) 1 (fun a r =>
      p <- diff a (basis i) ;; q <- diff a (basis j) ;; pq <- multiply p q ;;
      let P := integrate pq in
      old <- rd r (i * N + j) ;;
      wr r (i * N + j) (old + (evaluate P 1 - evaluate P 0))) b = Ok b' /\ blen b' = blen b /\
    bdat b' (i * N + j)%nat = Some (c + rsum (N - 1) (fun a => gram basis i j (S a))) /\
    forall x, x <> (i * N + j)%nat -> bdat b' x = bdat b x.
Proof.
  intros N1 LB Hi Hj b c Lb Hc.
  match goal with |- context [for_loop (N - 1) 1 ?F b] =>
  destruct (for_loop_inv (fun a (r : buf R) => blen r = blen b /\ bdat r (i * N + j)%nat = Some (c + rsum (a - 1) (fun a => gram basis i j (S a))) /\
     forall x, x <> (i * N + j)%nat -> bdat r x = bdat b x) (N - 1) 1 F b) as [b' [E [L [V K]]]] end.
  - split; [reflexivity|]. split; [cbn; rewrite Rplus_0_r; exact Hc|auto].
  - intros a r Ha [Lr [Vr Kr]].
    destruct (diff_ok a (basis i)) as [p [Ep Lp]]; [rewrite LB by exact Hi; lia|].
    destruct (diff_ok a (basis j)) as [q [Eq Lq]]; [rewrite LB by exact Hj; lia|].
    destruct (multiply_ok p q) as [pq [Em _]]; [rewrite Lp, Lq, !LB by assumption; lia|].
    rewrite Ep, Eq. cbn [bind]. rewrite Em. cbn [bind]. rewrite (rd_ok r (i * N + j) _ ltac:(lia) Vr). cbn [bind].
    rewrite wr_ok by lia. eexists. split; [reflexivity|]. cbn [blen bdat]. split; [exact Lr|]. split.
    + rewrite upd_same. f_equal. rewrite (gram_val basis i j a p q pq Ep Eq Em).
      replace (1 + a - 1)%nat with (S (a - 1)) by lia. cbn [rsum]. replace (S (a - 1)) with a by lia. ring.
    + intros x Hx. rewrite upd_other by exact Hx. apply Kr, Hx.
  - exists b'. split; [exact E|]. split; [exact L|]. split; [|exact K]. replace (1 + (N - 1) - 1)%nat with (N - 1)%nat in V by lia. exact V.
Qed.

Lemma osc_ok N (basis : nat -> poly) r0 (c : nat -> nat -> R) : (1 <= N)%nat -> (forall k, (k < N)%nat -> length (basis k) = N) ->
  blen r0 = (N * N)%nat -> (forall i j, (i < N)%nat -> (j < N)%nat -> bdat r0 (i * N + j)%nat = Some (c i j)) ->
  exists r, oscillation_indicator N basis r0 = Ok r /\ blen r = (N * N)%nat /\
    forall i j, (i < N)%nat -> (j < N)%nat -> bdat r (i * N + j)%nat = Some (c i j + rsum (N - 1) (fun a => gram basis i j (S a))).
Proof.
  intros N1 LB L0 C0. unfold oscillation_indicator.
  set (T := fun i j => c i j + rsum (N - 1) (fun a => gram basis i j (S a))).
  match goal with |- context [for_loop N 0 ?F r0] =>
  destruct (for_loop_inv (fun i0 (r : buf R) => blen r = (N * N)%nat /\ forall i j, (i < N)%nat -> (j < N)%nat ->
     bdat r (i * N + j)%nat = Some (if (i <? i0)%nat then T i j else c i j)) N 0 F r0) as [r [E [L V]]] end.
  - split; [exact L0|]. intros i j Hi Hj. apply C0; assumption.
  - intros i r Hi [Lr Vr].
    match goal with |- context [for_loop N 0 ?F r] =>
    destruct (for_loop_inv (fun j0 (r' : buf R) => blen r' = (N * N)%nat /\ forall i' j, (i' < N)%nat -> (j < N)%nat ->
       bdat r' (i' * N + j)%nat = Some (if orb (i' <? i)%nat (andb (i' =? i)%nat (j <? j0)%nat) then T i' j else c i' j)) N 0 F r) as [r' [E' [L' V']]] end.
    + split; [exact Lr|]. intros i' j Hi' Hj. rewrite Vr by assumption. change (j <? 0)%nat with false. now rewrite Bool.andb_false_r, Bool.orb_false_r.
    + intros j b Hj [Lb Vb].
      assert (Hc : bdat b (i * N + j)%nat = Some (c i j)).
      { rewrite Vb by lia. rewrite Nat.ltb_irrefl, (proj2 (Nat.ltb_ge j j)) by lia. now rewrite Bool.andb_false_r. }
      destruct (osc_inner N basis i j N1 LB ltac:(lia) ltac:(lia) b (c i j)) as [b' [Eb [Lb' [Vb' Kb']]]].
      * rewrite Lb. apply pack_lt; lia.
      * exact Hc.
      * exists b'. split; [exact Eb|]. split; [congruence|]. intros i' j' Hi' Hj'.
        destruct (Nat.eq_dec i' i) as [->|Ni]; [destruct (Nat.eq_dec j' j) as [->|Nj]|].
        { rewrite Vb'. rewrite Nat.eqb_refl, (proj2 (Nat.ltb_lt j (1 + j))) by lia. cbn [andb]. rewrite Bool.orb_true_r. reflexivity. }
        { rewrite Kb'; [|intros Q; assert (D := f_equal (fun x => x mod N)%nat Q); cbn beta in D;
            rewrite (proj2 (divmod N i j' Hj')), (proj2 (divmod N i j ltac:(lia))) in D; congruence].
          rewrite Vb by assumption. rewrite !Nat.eqb_refl. cbn [andb].
          replace (j' <? 1 + j)%nat with (j' <? j)%nat; [reflexivity|].
          destruct (Nat.ltb_spec j' j); destruct (Nat.ltb_spec j' (1 + j)); auto; lia. }
        { rewrite Kb'; [|intros Q; assert (D := f_equal (fun x => x / N)%nat Q); cbn beta in D;
            rewrite (proj1 (divmod N i' j' Hj')), (proj1 (divmod N i j ltac:(lia))) in D; congruence].
          rewrite Vb by assumption. destruct (Nat.eqb_spec i' i); [congruence|]. reflexivity. }
    + exists r'. split; [exact E'|]. split; [exact L'|]. intros i' j Hi' Hj. rewrite V' by assumption. rewrite Nat.add_0_l.
      rewrite (proj2 (Nat.ltb_lt j N) Hj), Bool.andb_true_r.
      replace (i' <? 1 + i)%nat with (orb (i' <? i)%nat (i' =? i)%nat); [reflexivity|].
      destruct (Nat.ltb_spec i' i); destruct (Nat.eqb_spec i' i); destruct (Nat.ltb_spec i' (1 + i)); cbn; auto; lia.
  - exists r. split; [exact E|]. split; [exact L|]. intros i j Hi Hj. rewrite V by assumption.
    rewrite Nat.add_0_l, (proj2 (Nat.ltb_lt i N) Hi). reflexivity.
Qed.

(** the Gram matrices are positive semidefinite *)
Lemma diff_total N (basis : nat -> poly) a k : (forall k, (k < N)%nat -> length (basis k) = N) -> (k < N)%nat -> (a <= N)%nat -> exists p, diff a (basis k) = Ok p.
Proof. intros LB Hk Ha. destruct (diff_ok a (basis k)) as [p [E _]]; [rewrite LB by exact Hk; exact Ha|]. eauto. Qed.

Definition dpoly (basis : nat -> poly) (a k : nat) : poly := match diff a (basis k) with Ok p => p | _ => [] end.

Lemma gram_psd N (basis : nat -> poly) a (w : nat -> R) : (forall k, (k < N)%nat -> length (basis k) = N) -> (a <= N)%nat ->
  0 <= rsum N (fun i => rsum N (fun j => w i * gram basis i j a * w j)).
Proof.
  intros LB Ha.
  assert (Dp : forall k x, (k < N)%nat -> Derive_n (evaluate (basis k)) a x = evaluate (dpoly basis a k) x).
  { intros k x Hk. destruct (diff_total N basis a k LB Hk Ha) as [p E]. unfold dpoly. rewrite E. apply (diff_derive _ _ _ E). }
  set (s := psum N (fun k => pscal (w k) (dpoly basis a k))).
  assert (Es : forall x, evaluate s x = rsum N (fun k => w k * evaluate (dpoly basis a k) x)).
  { intros x. unfold s. rewrite psum_eval. apply rsum_ext. intros k Hk. apply pscal_eval. }
  assert (C : forall i j, ex_RInt (fun t => evaluate (dpoly basis a i) t * evaluate (dpoly basis a j) t) 0 1).
  { intros i j. apply (@ex_RInt_continuous R_CompleteNormedModule). intros z _. apply (continuous_mult (evaluate (dpoly basis a i))); apply continuous_evaluate. }
  assert (I : is_RInt (fun t => evaluate s t * evaluate s t) 0 1 (rsum N (fun i => rsum N (fun j => w i * gram basis i j a * w j)))).
  { eapply (is_RInt_fext (fun t => rsum N (fun i => rsum N (fun j => (w i * w j) * (evaluate (dpoly basis a i) t * evaluate (dpoly basis a j) t))))); [|reflexivity|].
    - intros t. rewrite !Es. rewrite <- rsum_scal_r. apply rsum_ext. intros i Hi. rewrite <- rsum_scal. apply rsum_ext. intros; ring.
    - apply is_RInt_rsum. intros i Hi. apply is_RInt_rsum. intros j Hj.
      replace (w i * gram basis i j a * w j) with ((w i * w j) * gram basis i j a) by ring. apply is_RInt_Rscal.
      unfold gram. rewrite (RInt_ext _ (fun t => evaluate (dpoly basis a i) t * evaluate (dpoly basis a j) t)).
      + apply (@RInt_correct R_CompleteNormedModule), C.
      + intros x _. rewrite !Dp by assumption. reflexivity. }
  rewrite <- (is_RInt_unique _ _ _ _ I). apply RInt_ge_0; [lra|eexists; exact I|]. intros x _. apply Rle_0_sqr.
Qed.
