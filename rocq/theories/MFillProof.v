(** One dimension, one interface: the signed distance is a straight line, and ghost filling returns. *)
From Coq Require Import Reals Lia Lra ZArith Psatz.
From Verif Require Import Base Options Mat3 PhysModel UtilsModel UtilsProof FmmModel LevelSetModel FillModel FmmSpec FmmProps FillSpec FillProof FillProof2 FillProof3 FillProof6 FillProof7 FillProof8 FillProps.
Import List ListNotations.
Open Scope nat_scope.

Lemma inside1 nx c : inside [nx] c -> exists i, c = [i] /\ i < nx.
Proof. destruct c as [|i [|? ?]]; cbn; try tauto. intros [H _]. eauto. Qed.
Lemma nbr1 d i c' : nbr d [i] c' -> d = 0 /\ (c' = [S i] \/ (exists k, i = S k /\ c' = [k])).
Proof.
  intros [N|N]; inversion N; subst; try (match goal with X : next _ _ [] |- _ => inversion X | X : next _ [] _ |- _ => inversion X end).
  - auto.
  - split; [reflexivity|]. right. eauto.
Qed.

Section Line.
Variables (nx j : nat) (h tau : R) (phi : nat -> R).
Hypothesis Hj : j + 1 < nx.
Hypothesis Hh : (0 < h)%R.
Hypothesis Htau : tau = 1%R \/ tau = (-1)%R.
Hypothesis Hlow : forall i, i <= j -> (tau * phi i < 0)%R.
Hypothesis Hhigh : forall i, j < i < nx -> (0 < tau * phi i)%R.
Hypothesis Heps : forall i, i < nx -> (phi i <= 0 \/ doubleEpsilon < phi i)%R.
Hypothesis Hmax : (h * (INR nx + 1) < maxDouble)%R.
Notation P := (fun c => phi (flat [nx] c)).
Definition frac : R := (Rabs (phi j) / (Rabs (phi j) + Rabs (phi (j + 1))))%R.
Lemma flat1 i : flat [nx] [i] = i.
Proof. cbn. lia. Qed.
Lemma abs_tau x : Rabs (tau * x) = Rabs x.
Proof. rewrite Rabs_mult. destruct Htau as [-> | ->]; [rewrite Rabs_R1|rewrite (Rabs_left (-1)) by lra]; ring. Qed.
Lemma phi_abs i : i < nx -> (0 < Rabs (phi i))%R.
Proof. intros H. rewrite <- abs_tau. apply Rabs_pos_lt. destruct (Nat.le_gt_cases i j); [pose proof (Hlow i ltac:(lia))|pose proof (Hhigh i ltac:(lia))]; lra. Qed.
Lemma frac_range : (0 < frac < 1)%R.
Proof.
  pose proof (phi_abs j ltac:(lia)) as A. pose proof (phi_abs (j + 1) ltac:(lia)) as B. unfold frac. split; [apply Rdiv_lt_0_compat; lra|].
  apply Rmult_lt_reg_r with (Rabs (phi j) + Rabs (phi (j + 1)))%R; [lra|]. unfold Rdiv. rewrite Rmult_assoc, Rinv_l by lra. lra.
Qed.
Lemma cross_sign a b : (tau * a < 0)%R -> (0 < tau * b)%R -> (a * b < 0)%R.
Proof. intros A B. replace (a * b)%R with ((tau * a) * (tau * b))%R by (destruct Htau as [-> | ->]; ring). nra. Qed.
Lemma no_cross a b : (tau * a < 0)%R -> (tau * b < 0)%R -> ~ (a * b < 0)%R.
Proof. intros A B. replace (a * b)%R with ((tau * a) * (tau * b))%R by (destruct Htau as [-> | ->]; ring). nra. Qed.
Lemma no_cross' a b : (0 < tau * a)%R -> (0 < tau * b)%R -> ~ (a * b < 0)%R.
Proof. intros A B. replace (a * b)%R with ((tau * a) * (tau * b))%R by (destruct Htau as [-> | ->]; ring). nra. Qed.
Lemma on_line i : i < nx -> on_interface [nx] P [i] -> i = j \/ i = j + 1.
Proof.
  intros Hi [Z|[d [c' [I [N C]]]]].
  - exfalso. cbv beta in Z. rewrite flat1 in Z. pose proof (phi_abs i Hi). rewrite Z, Rabs_R0 in H. lra.
  - destruct (inside1 _ _ I) as [k [-> Hk]]. cbv beta in C. rewrite !flat1 in C. apply nbr1 in N. destruct N as [_ N].
    destruct (Nat.le_gt_cases i j) as [Li|Li]; destruct (Nat.le_gt_cases k j) as [Lk|Lk].
    + exfalso. apply (no_cross _ _ (Hlow i Li) (Hlow k Lk) C).
    + destruct N as [N|[k' [-> N]]]; injection N as N; lia.
    + destruct N as [N|[k' [-> N]]]; injection N as N; lia.
    + exfalso. apply (no_cross' _ _ (Hhigh i ltac:(lia)) (Hhigh k ltac:(lia)) C).
Qed.
Lemma crossing_j : crossing [nx] P 0 [j] [j + 1].
Proof.
  split; [cbn; lia|]. split; [left; replace (j + 1) with (S j) by lia; constructor|]. rewrite !flat1. apply cross_sign; [apply Hlow; lia|apply Hhigh; lia].
Qed.
Lemma crossing_j' : crossing [nx] P 0 [j + 1] [j].
Proof.
  split; [cbn; lia|]. split; [right; replace (j + 1) with (S j) by lia; constructor|]. rewrite !flat1, Rmult_comm. apply cross_sign; [apply Hlow; lia|apply Hhigh; lia].
Qed.

Lemma line_distance : exists b, distance [nx] [h] phi = Ok b /\ blen b = nx /\ forall i, i < nx -> rd b i = Ok (tau * (INR i - (INR j + frac)) * h)%R.
Proof.
  destruct (fmm_eikonal [nx] [h] phi h) as [b [D [E H]]]; try assumption.
  - cbn. lia.
  - intros [|d] Hd; [reflexivity|cbn in Hd; lia].
  - intros c Hc. destruct (inside1 _ _ Hc) as [i [-> Hi]]. rewrite flat1. apply Heps, Hi.
  - cbn [cells]. rewrite Nat.mul_1_r. exact Hmax.
  - right. exists 0, [j], [j + 1]. split; [cbn; lia|apply crossing_j].
  - exists b. split; [exact E|].
    destruct (fmm_safe [nx] [h] phi ltac:(cbn; lia)) as [b' [E' [L' _]]]. rewrite E in E'. injection E' as <-. split; [rewrite L'; cbn; lia|].
    set (d := fun i => Rabs (D [i])).
    assert (F : forall i, i < nx -> rd b i = Ok (D [i]) /\ same_side (phi i) (D [i]) /\ (on_interface [nx] P [i] -> initial_value [nx] P [h] [i] (D [i])) /\ (~ on_interface [nx] P [i] -> eikonal_at [nx] h D [i])).
    { intros i Hi. pose proof (H [i] ltac:(cbn; lia)) as X. rewrite flat1 in X. exact X. }
    pose proof frac_range as FR. pose proof (phi_abs j ltac:(lia)) as Aj. pose proof (phi_abs (j + 1) ltac:(lia)) as Aj1.
    assert (Dj : d j = (frac * h)%R).
    { destruct (F j ltac:(lia)) as [_ [_ [IV _]]]. destruct IV as [_ IV]; [right; exists 0, [j + 1]; apply crossing_j|].
      rewrite flat1 in IV. destruct IV as [[d0 [c' [C Ec]]] _]; [intros Z; rewrite Z, Rabs_R0 in Aj; lra|]. unfold d. rewrite Ec. destruct C as [I [N C]].
      destruct (inside1 _ _ I) as [k [-> Hk]]. apply nbr1 in N. destruct N as [-> N]. rewrite !flat1 in C.
      assert (k = j + 1). { destruct N as [N|[k' [Ek N]]]; injection N as N; [lia|]. exfalso. subst k'. apply (no_cross _ _ (Hlow j ltac:(lia)) (Hlow k ltac:(lia)) C). } subst k.
      unfold crossing_distance. rewrite !flat1. cbn [nth]. unfold frac. field. lra. }
    assert (Dj1 : d (j + 1) = ((1 - frac) * h)%R).
    { destruct (F (j + 1) ltac:(lia)) as [_ [_ [IV _]]]. destruct IV as [_ IV]; [right; exists 0, [j]; apply crossing_j'|].
      rewrite flat1 in IV. destruct IV as [[d0 [c' [C Ec]]] _]; [intros Z; rewrite Z, Rabs_R0 in Aj1; lra|]. unfold d. rewrite Ec. destruct C as [I [N C]].
      destruct (inside1 _ _ I) as [k [-> Hk]]. apply nbr1 in N. destruct N as [-> N]. rewrite !flat1 in C.
      assert (k = j). { destruct N as [N|[k' [Ek N]]]; injection N as N; [|lia]. exfalso. apply (no_cross' _ _ (Hhigh (j + 1) ltac:(lia)) (Hhigh k ltac:(lia)) C). } subst k.
      unfold crossing_distance. rewrite !flat1. cbn [nth]. unfold frac. field. lra. }
    assert (EK : forall i, i < nx -> i <> j -> i <> j + 1 -> exists k, k < nx /\ (k = S i \/ i = S k) /\ d i = (h + d k)%R).
    { intros i Hi N1 N2. destruct (F i Hi) as [_ [_ [_ EK]]]. destruct EK as [m [U Q]]; [intros X; destruct (on_line i Hi X); lia|].
      cbn [length seq map fold_right] in Q. destruct (U 0 ltac:(cbn; lia)) as [M0 [_ M2]].
      assert (m 0 = h) by nra. destruct M2 as [M2|[c' [I [N M2]]]]; [lra|]. destruct (inside1 _ _ I) as [k [-> Hk]]. apply nbr1 in N. destruct N as [_ N].
      exists k. split; [exact Hk|]. split; [destruct N as [N|[k' [Ek N]]]; injection N as N; lia|]. unfold d. lra. }
    assert (Left : forall i, i < j -> d i = (h + d (S i))%R).
    { induction i as [|i IH]; intros Hi; [destruct (EK 0 ltac:(lia) ltac:(lia) ltac:(lia)) as [k [Hk [[-> |Ek] Q]]]|destruct (EK (S i) ltac:(lia) ltac:(lia) ltac:(lia)) as [k [Hk [[-> |Ek] Q]]]]; try exact Q; [lia|].
      injection Ek as <-. rewrite (IH ltac:(lia)) in Q. lra. }
    assert (Right : forall k i, i + k = nx - 1 -> j + 1 < i -> d i = (h + d (i - 1)%nat)%R).
    { induction k as [|k IH]; intros i Ei Hi; destruct (EK i ltac:(lia) ltac:(lia) ltac:(lia)) as [e [He [[-> |Ee] Q]]].
      - lia.
      - subst i. replace (S e - 1) with e by lia. exact Q.
      - pose proof (IH (S i) ltac:(lia) ltac:(lia)) as X. replace (S i - 1) with i in X by lia. lra.
      - subst i. replace (S e - 1) with e by lia. exact Q. }
    assert (Ll : forall k i, i + k = j -> d i = ((INR j - INR i + frac) * h)%R).
    { induction k as [|k IH]; intros i Ei.
      - replace i with j by lia. rewrite Dj. ring.
      - rewrite (Left i ltac:(lia)), (IH (S i) ltac:(lia)), S_INR. ring. }
    assert (Rr : forall k, j + 1 + k < nx -> d (j + 1 + k) = ((INR (j + 1 + k)%nat - INR j - frac) * h)%R).
    { induction k as [|k IH]; intros Hk.
      - rewrite Nat.add_0_r, Dj1, plus_INR. cbn [INR]. ring.
      - rewrite (Right (nx - 1 - (j + 1 + S k)) (j + 1 + S k)) by lia. replace (j + 1 + S k - 1) with (j + 1 + k) by lia. rewrite (IH ltac:(lia)).
        replace (j + 1 + S k) with (S (j + 1 + k)) by lia. rewrite S_INR. ring. }
    intros i Hi. destruct (F i Hi) as [Ri [[SS1 [SS2 SS3]] _]]. rewrite Ri. f_equal.
    destruct (Nat.le_gt_cases i j) as [L|L].
    + pose proof (Ll (j - i) i ltac:(lia)) as Q. pose proof (Hlow i L) as S. unfold d in Q.
      destruct Htau as [-> | ->]; [rewrite Rabs_left in Q by (apply SS2; lra)|rewrite Rabs_right in Q by (apply Rgt_ge, SS1; lra)]; nra.
    + pose proof (Rr (i - j - 1) ltac:(lia)) as Q. replace (j + 1 + (i - j - 1)) with i in Q by lia. pose proof (Hhigh i ltac:(lia)) as S. unfold d in Q.
      destruct Htau as [-> | ->]; [rewrite Rabs_right in Q by (apply Rgt_ge, SS1; lra)|rewrite Rabs_left in Q by (apply SS2; lra)]; nra.
Qed.
End Line.
