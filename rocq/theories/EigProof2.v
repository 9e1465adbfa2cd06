(** The matrix of eigenvectors: its columns one by one, and that they are independent. *)
From Coq Require Import Reals ZArith Lra Psatz Lia FunctionalExtensionality.
From Coquelicot Require Import Coquelicot.
From Verif Require Import Base Options Sum Mat3 PhysModel PhysInst PhysSpec PhysProof PhysProof2 PhysProof5 PhysProps PhysProof7 RiemannProof WaveProps.
From Verif Require Import RiemannModel RConsModel RConsSpec RConsProof RConsProof3 RConsProof4 EigProof.
From Verif Require EqModel EqSpec.
Open Scope R_scope.

Lemma mm3 A B i j : mm 3 A B i j = sum3 (fun k => A i k * B k j).
Proof. unfold mm, sum3. cbn [rsum]. ring. Qed.
Section Eig.
Variable o : options.
Variable P : par.
Variable sm : vec -> R * R * R.
Variable inverse : nat -> mat -> mat.
Variable eigensolve : nat -> mat -> vec * mat.
Hypothesis INV : inverse_ok inverse.
Hypothesis PL : plain o P.
Hypothesis TH : THERMAL o = false.
Variable Q : vec.
Notation r := (Q 0%nat).
Notation p := (pressure o P sm Q).
Notation X1 := (Xi1 o P r p Q 0).
Notation X2 := (Xi2 o P sm r p Q 0).
Notation Xi := (mm 5 X1 X2).
Notation l := (fst (eigensolve 3%nat Xi)).
Notation q := (snd (eigensolve 3%nat Xi)).
Hypothesis OK : eos_ok (prm P) r.
Hypothesis HG : Gamma_MG (prm P) r <> 0.
Hypothesis HB : b02 (prm P) <> 0.
Hypothesis HP : invertible 3 (dsigmadA_dir P Q 0).
Hypothesis EB : eigenbasis 3 Xi l q.
Hypothesis HY : hyperbolic o P sm Q.
Variable M : mat.
Hypothesis HM : eigen o P sm inverse eigensolve Q 0 = Ok M.
Variables (sr : mat -> R) (ea : EqModel.mat -> vec -> vec) (src : vec -> vec).
Notation cs := (c_s2 (prm P) r). Notation b := (b02 (prm P)).
Let VIo : VISCOUS o = true := proj1 PL.
Lemma cs_nz : cs <> 0.
Proof. unfold c_s2. apply Rmult_integral_contrapositive_currified; [exact HB|]. apply Rgt_not_eq, exp_pos. Qed.

(** ** entries *)
Notation PIc := (fun i j : nat => dsigmadA r b (get_A Q) (mmul (mtr (get_A Q)) (get_A Q)) (AdevG (get_A Q)) 0 i j 0).
Notation I1 := (inverse 3 PIc).
Lemma PI_scale n i m : dsigmadA r b (get_A Q) (mmul (mtr (get_A Q)) (get_A Q)) (AdevG (get_A Q)) 0 i m n = b / cs * Pik P Q n i m.
Proof. assert (N := cs_nz). unfold Pik, dsigmadA. fold (gram (get_A Q)). field. exact N. Qed.
Lemma Pik_dir i m : (i < 3)%nat -> (m < 3)%nat -> Pik P Q 0 i m = dsigmadA_dir P Q 0 i m.
Proof. intros Hi Hm. symmetry. exact (stress_derivative_column P Q 0 i m Hi ltac:(lia) Hm). Qed.
Lemma I1_inv i j : (i < 3)%nat -> (j < 3)%nat -> rsum 3 (fun k => Pik P Q 0 i k * I1 k j) = cs / b * eye i j.
Proof.
  intros Hi Hj. assert (N := cs_nz).
  assert (IV : invertible 3 PIc).
  { destruct HP as (B & HBi). exists (fun i j => cs / b * B i j). intros x y Hx Hy. destruct (HBi x y Hx Hy) as (A1 & A2).
    unfold mm in *. cbn [rsum] in *. rewrite !PI_scale, !Pik_dir by lia. split; [rewrite <- A1|rewrite <- A2]; field; split; assumption. }
  destruct (INV 3%nat _ IV i j Hi Hj) as (E & _). unfold mm in E. rewrite <- E. cbn [rsum]. rewrite !PI_scale. field. split; assumption.
Qed.
Notation tmp1 := (fun i j => / 2 * mm 3 X2 q i j * / l j).
Notation tmp2 := (fun i j => / 2 * q i j * sqrt (/ l j)).
Lemma Ok_inj {A} (x y : A) : Ok x = Ok y -> x = y. Proof. intros H. injection H as H. exact H. Qed.
Ltac entry0 := pose proof HM as HM'; unfold eigen in HM'; rewrite VIo, TH in HM'; cbn [negb] in HM'; apply Ok_inj in HM'; rewrite <- HM'; clear HM';
  unfold setblock, n3, n4, RiemannModel.n1; rewrite ?TH; cbn [b2n Nat.add].
Ltac entry := pose proof HM as HM'; unfold eigen in HM'; rewrite VIo, TH in HM'; cbn [negb] in HM'; injection HM' as <-;
  unfold setblock, n3, n4, RiemannModel.n1; rewrite ?TH; cbn [b2n Nat.add Nat.leb Nat.ltb Nat.sub Nat.eqb andb].
Lemma M_ac_top i j : (i < 5)%nat -> (j < 3)%nat -> M i j = tmp1 i j /\ M i (3 + j)%nat = tmp1 i j.
Proof.
  intros Hi Hj. entry.
  (destruct i as [|[|[|[|[|i]]]]]; [| | | | |lia]); idx3 j; cbn [b2n Nat.add Nat.leb Nat.ltb Nat.sub Nat.eqb andb]; split; reflexivity.
Qed.
Lemma M_ac_mid i j : (i < 6)%nat -> (j < 6)%nat -> M (5 + i)%nat j = 0.
Proof.
  intros Hi Hj. entry.
  (destruct i as [|[|[|[|[|[|i]]]]]]; [| | | | | |lia]); (destruct j as [|[|[|[|[|[|j]]]]]]; [| | | | | |lia]); reflexivity.
Qed.
Lemma M_ac_v i j : (i < 3)%nat -> (j < 3)%nat -> M (11 + i)%nat j = tmp2 i j /\ M (11 + i)%nat (3 + j)%nat = - tmp2 i j.
Proof.
  intros Hi Hj. entry. idx3 i; idx3 j; cbn [b2n Nat.add Nat.leb Nat.ltb Nat.sub Nat.eqb andb]; split; reflexivity.
Qed.
Lemma M_low i j : (14 <= i < V o)%nat -> M i j = if Nat.eqb i j then 1 else 0.
Proof.
  intros Hi. entry0.  rewrite (proj2 (Nat.leb_le 14 i)) by lia. rewrite (proj2 (Nat.ltb_lt i (V o))) by lia. cbn [andb].
  destruct (Nat.eqb_spec i j) as [->|N]; [reflexivity|].
  repeat match goal with |- context [Nat.ltb i ?c] => rewrite (proj2 (Nat.ltb_ge i c)) by lia end. rewrite ?Bool.andb_false_r. reflexivity.
Qed.
Lemma M_right i j : (i < 14)%nat -> (14 <= j)%nat -> M i j = 0.
Proof.
  intros Hi Hj. entry0. rewrite (proj2 (Nat.leb_gt 14 i)) by lia. cbn [andb].
  repeat match goal with |- context [Nat.ltb j ?c] => rewrite (proj2 (Nat.ltb_ge j c)) by lia end. rewrite ?Bool.andb_false_r. cbn [andb].
  repeat match goal with |- context [(?a && false)%bool] => rewrite (Bool.andb_false_r a) end. reflexivity.
Qed.
Lemma M_co_v i j : (i < 3)%nat -> (6 <= j < 14)%nat -> M (11 + i)%nat j = 0.
Proof. intros Hi Hj. entry. idx3 i; (do 14 (destruct j as [|j]; [first [lia|reflexivity]|])); lia. Qed.
Lemma M_co_01 i j : (i < 2)%nat -> (6 <= j < 14)%nat -> M i j = if Nat.eqb j (6 + i) then 1 else 0.
Proof. intros Hi Hj. entry. destruct i as [|[|i]]; [| |lia]; (do 14 (destruct j as [|j]; [first [lia|reflexivity]|])); lia. Qed.
Lemma M_co_A i j : (i < 6)%nat -> (6 <= j < 14)%nat -> M (5 + i)%nat j = if Nat.eqb j (8 + i) then 1 else 0.
Proof.
  intros Hi Hj. entry.
  (destruct i as [|[|[|[|[|[|i]]]]]]; [| | | | | |lia]); (do 14 (destruct j as [|j]; [first [lia|reflexivity]|])); lia.
Qed.
Lemma M_6 i : (i < 3)%nat -> M (2 + i)%nat 6%nat = - rsum 3 (fun k => I1 i k * dsigmadrho P Q 0 k).
Proof. intros Hi. entry. idx3 i; reflexivity. Qed.
Lemma M_7 i : (i < 3)%nat -> M (2 + i)%nat 7%nat = I1 i 0%nat.
Proof. intros Hi. entry. idx3 i; reflexivity. Qed.
Lemma M_8 i n j : (i < 3)%nat -> (1 <= n < 3)%nat -> (j < 3)%nat -> M (2 + i)%nat (5 + 3 * n + j)%nat = - rsum 3 (fun k => I1 i k * (b / cs * Pik P Q n k j)).
Proof.
  intros Hi Hn Hj. rewrite (rsum_ext 3 _ (fun k => I1 i k * dsigmadA r b (get_A Q) (mmul (mtr (get_A Q)) (get_A Q)) (AdevG (get_A Q)) 0 k j n)) by (intros; rewrite PI_scale; reflexivity).
  entry. destruct n as [|[|[|n]]]; try lia; idx3 i; idx3 j; reflexivity.
Qed.

(** ** waves *)
Notation col j := (fun i => M i j).
Notation wave d lam := (forall i, (i < V o)%nat ->
  rsum (V o) (fun j => EqModel.system_matrix o (gpr o P sm sr ea src) Q 0 i j * g o P sm Q d j) = lam * g o P sm Q d i).
(** a direction is an acoustic one if the first five rows follow the velocity *)
Lemma acoustic (d u : vec) s : s <> 0 -> (forall i, (i < 5)%nat -> s * d i = sum3 (fun k => X2 i k * u k)) -> (forall i, (i < 3)%nat -> d (11 + i)%nat = u i) ->
  (forall k, (5 <= k < 11)%nat -> d k = 0) -> (forall k, (14 <= k)%nat -> d k = 0) ->
  (forall i, (i < 3)%nat -> sum3 (fun j => Xi i j * u j) = s * s * u i) -> wave d (Q 2%nat / r + s).
Proof.
  intros S0 D5 DV DM DL EX i Hi. assert (R0 : 0 < r) by apply OK.
  assert (HPx : THERMAL o = false -> invertible 3 (dsigmadA_dir P Q 0)) by (intros _; exact HP).
  apply (g_wave o P sm PL TH Q OK HG HB d sr ea src s HY); [| | | | |exact Hi].
  - rewrite D5 by lia. change 11%nat with (11 + 0)%nat. rewrite DV by lia. unfold sum3. rewrite !(X2_0 o P sm VIo Q HPx). cbn [Nat.eqb]. ring.
  - intros k Hk. rewrite DV by exact Hk.
    assert (E : s * (s * u k) = sum3 (fun j => Xi k j * u j)) by (rewrite EX by exact Hk; ring).
    assert (E2 : s * (rsum 5 (fun j => X1 k j * d j)) = sum3 (fun j => Xi k j * u j)).
    { rewrite <- rsum_scal. rewrite (rsum_ext 5 _ (fun j => X1 k j * sum3 (fun a => X2 j a * u a))) by (intros j Hj; rewrite <- D5 by exact Hj; ring).
      unfold mm, sum3. cbn [rsum]. ring. }
    rewrite <- E2 in E. apply Rmult_eq_reg_l in E; [|exact S0].
    transitivity (r * (s * u k)); [ring|]. rewrite E. unfold sum3. rewrite !(DM (2 + 3 * 1 + _)%nat), !(DM (2 + 3 * 2 + _)%nat) by lia.
    rewrite !Pik_dir by (exact Hk || lia). unfold Xi1, setblock. rewrite VIo, TH. unfold delta.
    idx3 k; cbn [rsum Nat.leb Nat.ltb Nat.add Nat.sub Nat.eqb Nat.mul andb]; field; lra.
  - intros m n Hm Hn. unfold mvec, sum3. rewrite !DV by lia. unfold delta. destruct (Nat.eqb_spec n 0) as [->|N].
    + replace (2 + 3 * 0 + m)%nat with (2 + m)%nat by lia. rewrite D5 by lia. unfold sum3. rewrite !(X2_A o P sm VIo Q HPx) by lia. ring.
    + rewrite DM by lia. ring.
  - rewrite D5 by lia. change (d 11%nat) with (d (11 + 0)%nat). unfold sum3. rewrite !DV by lia. unfold Xi2, addblock, setblock. rewrite VIo, TH. cbn [Nat.leb Nat.ltb Nat.add Nat.sub andb]. ring.
  - intros k Hk. rewrite DL by exact Hk. ring.
Qed.
(** a direction without velocity and change of traction moves with the material *)
Definition traction_rate (d : vec) (i : nat) : R := d 1%nat * delta i 0 - (dsigmadrho P Q 0 i * d 0%nat + sum3 (fun m => sum3 (fun n => Pik P Q n i m * d (2 + 3 * n + m)%nat))).
Lemma contact (d : vec) : (forall i, (i < 3)%nat -> d (11 + i)%nat = 0) -> (forall i, (i < 3)%nat -> traction_rate d i = 0) -> wave d (Q 2%nat / r).
Proof.
  intros DV DT i Hi. rewrite <- (Rplus_0_r (Q 2%nat / r)). apply (g_wave o P sm PL TH Q OK HG HB d sr ea src 0 HY); [| | | | |exact Hi].
  - change (d 11%nat) with (d (11 + 0)%nat). rewrite DV by lia. ring.
  - intros k Hk. rewrite (DV k Hk). assert (E := DT k Hk). unfold traction_rate in E. rewrite E. ring.
  - intros m n _ _. unfold mvec, sum3. rewrite !DV by lia. ring.
  - change (d 11%nat) with (d (11 + 0)%nat). unfold sum3. rewrite !DV by lia. ring.
  - intros. ring.
Qed.
Lemma inv_sqrt' x : 0 < x -> sqrt (/ x) = / sqrt x. Proof. intros. apply sqrt_inv. Qed.
Lemma col_sound j : (j < 3)%nat -> wave (col j) (Q 2%nat / r + sqrt (l j)) /\ wave (col (3 + j)%nat) (Q 2%nat / r - sqrt (l j)).
Proof.
  intros Hj. destruct EB as (L & _ & E). specialize (L j Hj). assert (Z : 0 < sqrt (l j)) by (apply sqrt_lt_R0, L). assert (ZZ := sqrt_sqrt (l j) (Rlt_le _ _ L)).
  assert (TQ : forall i, (i < 3)%nat -> sum3 (fun k => Xi i k * (/ 2 * q k j * / sqrt (l j))) = l j * (/ 2 * q i j * / sqrt (l j))).
  { intros i Hi. specialize (E i j Hi Hj). cbn [rsum] in E. unfold sum3.
    transitivity (/ 2 * / sqrt (l j) * (0 + Xi i 0%nat * q 0%nat j + Xi i 1%nat * q 1%nat j + Xi i 2%nat * q 2%nat j)); [ring|].
    rewrite E. ring. }
  split.
  - apply (acoustic _ (fun i => / 2 * q i j * / sqrt (l j))).
    + lra.
    + intros i Hi. cbv beta. rewrite (proj1 (M_ac_top i j Hi Hj)). cbv beta. rewrite mm3. unfold sum3. set (z := sqrt (l j)) in *. replace (/ l j) with (/ (z * z)) by (rewrite ZZ; reflexivity). field. lra.
    + intros i Hi. cbv beta. rewrite (proj1 (M_ac_v i j Hi Hj)). cbv beta. rewrite inv_sqrt' by exact L. reflexivity.
    + intros k Hk. cbv beta. replace k with (5 + (k - 5))%nat by lia. apply M_ac_mid; lia.
    + intros k Hk. cbv beta. destruct (le_lt_dec (V o) k) as [G|G].
      * entry0. rewrite (proj2 (Nat.ltb_ge k (V o))) by exact G. rewrite Bool.andb_false_r. cbn [andb].
        repeat match goal with |- context [Nat.ltb k ?c] => rewrite (proj2 (Nat.ltb_ge k c)) by lia end. rewrite ?Bool.andb_false_r. reflexivity.
      * rewrite M_low by lia. rewrite (proj2 (Nat.eqb_neq k j)) by lia. reflexivity.
    + intros i Hi. cbv beta. rewrite TQ by exact Hi. rewrite ZZ. reflexivity.
  - replace (Q 2%nat / r - sqrt (l j)) with (Q 2%nat / r + - sqrt (l j)) by ring. apply (acoustic _ (fun i => - (/ 2 * q i j * / sqrt (l j)))).
    + lra.
    + intros i Hi. cbv beta. rewrite (proj2 (M_ac_top i j Hi Hj)). cbv beta. rewrite mm3. unfold sum3. set (z := sqrt (l j)) in *. replace (/ l j) with (/ (z * z)) by (rewrite ZZ; reflexivity). field. lra.
    + intros i Hi. cbv beta. rewrite (proj2 (M_ac_v i j Hi Hj)). cbv beta. rewrite inv_sqrt' by exact L. reflexivity.
    + intros k Hk. cbv beta. replace k with (5 + (k - 5))%nat by lia. apply M_ac_mid; lia.
    + intros k Hk. cbv beta. destruct (le_lt_dec (V o) k) as [G|G].
      * entry0. rewrite (proj2 (Nat.ltb_ge k (V o))) by exact G. rewrite Bool.andb_false_r. cbn [andb].
        repeat match goal with |- context [Nat.ltb k ?c] => rewrite (proj2 (Nat.ltb_ge k c)) by lia end. rewrite ?Bool.andb_false_r. reflexivity.
      * rewrite M_low by lia. rewrite (proj2 (Nat.eqb_neq k (3 + j))) by lia. reflexivity.
    + intros i Hi. cbv beta. transitivity (- sum3 (fun k => Xi i k * (/ 2 * q k j * / sqrt (l j)))); [unfold sum3; ring|]. rewrite TQ by exact Hi. rewrite <- ZZ at 1. ring.
Qed.
(** the change of traction along the other columns *)
Lemma col_traction j i : (6 <= j)%nat -> (i < 3)%nat -> traction_rate (col j) i =
  if Nat.eqb j 6 then (cs / b - 1) * dsigmadrho P Q 0 i else if Nat.eqb j 7 then (1 - cs / b) * delta i 0 else 0.
Proof.
  intros Hj Hi. assert (N := cs_nz). unfold traction_rate. unfold sum3. cbn [Nat.mul Nat.add].
  destruct (le_lt_dec 14 j) as [G|G].
  { rewrite !M_right by lia. rewrite (proj2 (Nat.eqb_neq j 6)), (proj2 (Nat.eqb_neq j 7)) by lia. ring. }
  assert (A5 : forall k, (k < 6)%nat -> M (5 + k)%nat j = if Nat.eqb j (8 + k) then 1 else 0) by (intros; apply M_co_A; lia).
  pose proof (A5 0%nat ltac:(lia)) as B0. pose proof (A5 1%nat ltac:(lia)) as B1. pose proof (A5 2%nat ltac:(lia)) as B2.
  pose proof (A5 3%nat ltac:(lia)) as B3. pose proof (A5 4%nat ltac:(lia)) as B4. pose proof (A5 5%nat ltac:(lia)) as B5. cbn [Nat.add] in *.
  rewrite B0, B1, B2, B3, B4, B5. pose proof (M_co_01 0 j ltac:(lia) ltac:(lia)) as C0. pose proof (M_co_01 1 j ltac:(lia) ltac:(lia)) as C1. cbn [Nat.add] in *. rewrite C0, C1.
  pose proof (fun c Hc => I1_inv i c Hi Hc) as II. cbn [rsum] in II.
  destruct (Nat.eqb_spec j 6) as [->|N6].
  { pose proof (M_6 0 ltac:(lia)) as E0. pose proof (M_6 1 ltac:(lia)) as E1. pose proof (M_6 2 ltac:(lia)) as E2. cbn [Nat.add rsum] in *. rewrite E0, E1, E2. cbn [Nat.eqb].
    pose proof (II 0%nat ltac:(lia)) as J0. pose proof (II 1%nat ltac:(lia)) as J1. pose proof (II 2%nat ltac:(lia)) as J2.
    set (S0 := dsigmadrho P Q 0 0%nat) in *. set (S1 := dsigmadrho P Q 0 1%nat) in *. set (S2 := dsigmadrho P Q 0 2%nat) in *.
    transitivity ((0 + Pik P Q 0 i 0 * I1 0%nat 0%nat + Pik P Q 0 i 1 * I1 1%nat 0%nat + Pik P Q 0 i 2 * I1 2%nat 0%nat) * S0
      + (0 + Pik P Q 0 i 0 * I1 0%nat 1%nat + Pik P Q 0 i 1 * I1 1%nat 1%nat + Pik P Q 0 i 2 * I1 2%nat 1%nat) * S1
      + (0 + Pik P Q 0 i 0 * I1 0%nat 2%nat + Pik P Q 0 i 1 * I1 1%nat 2%nat + Pik P Q 0 i 2 * I1 2%nat 2%nat) * S2 - dsigmadrho P Q 0 i); [ring|].
    rewrite J0, J1, J2. unfold eye. idx3 i; cbn [Nat.eqb]; fold S0 S1 S2; ring. }
  destruct (Nat.eqb_spec j 7) as [->|N7].
  { pose proof (M_7 0 ltac:(lia)) as E0. pose proof (M_7 1 ltac:(lia)) as E1. pose proof (M_7 2 ltac:(lia)) as E2. cbn [Nat.add] in *. rewrite E0, E1, E2. cbn [Nat.eqb].
    pose proof (II 0%nat ltac:(lia)) as J0.
    transitivity (delta i 0 - (0 + Pik P Q 0 i 0 * I1 0%nat 0%nat + Pik P Q 0 i 1 * I1 1%nat 0%nat + Pik P Q 0 i 2 * I1 2%nat 0%nat)); [ring|].
    rewrite J0. unfold eye, delta. ring. }
  assert (exists n c, (1 <= n < 3)%nat /\ (c < 3)%nat /\ j = (5 + 3 * n + c)%nat) as (n & c & Hn & Hc & ->).
  { destruct (le_lt_dec 11 j); [exists 2%nat, (j - 11)%nat|exists 1%nat, (j - 8)%nat]; lia. }
  pose proof (M_8 0 n c ltac:(lia) Hn Hc) as E0. pose proof (M_8 1 n c ltac:(lia) Hn Hc) as E1. pose proof (M_8 2 n c ltac:(lia) Hn Hc) as E2. cbn [Nat.add rsum] in E0, E1, E2.
  cbn [Nat.add] in *. rewrite E0, E1, E2.
  pose proof (II 0%nat ltac:(lia)) as J0. pose proof (II 1%nat ltac:(lia)) as J1. pose proof (II 2%nat ltac:(lia)) as J2.
  set (S0 := Pik P Q n 0 c) in *. set (S1 := Pik P Q n 1 c) in *. set (S2 := Pik P Q n 2 c) in *.
  match goal with |- ?L = 0 => transitivity (((0 + Pik P Q 0 i 0 * I1 0%nat 0%nat + Pik P Q 0 i 1 * I1 1%nat 0%nat + Pik P Q 0 i 2 * I1 2%nat 0%nat) * S0
      + (0 + Pik P Q 0 i 0 * I1 0%nat 1%nat + Pik P Q 0 i 1 * I1 1%nat 1%nat + Pik P Q 0 i 2 * I1 2%nat 1%nat) * S1
      + (0 + Pik P Q 0 i 0 * I1 0%nat 2%nat + Pik P Q 0 i 1 * I1 1%nat 2%nat + Pik P Q 0 i 2 * I1 2%nat 2%nat) * S2) * (b / cs) - Pik P Q n i c) end.
  - destruct n as [|[|[|n]]]; try lia; idx3 c; cbn [Nat.mul Nat.add Nat.eqb]; ring.
  - rewrite J0, J1, J2. unfold eye. idx3 i; cbn [Nat.eqb]; fold S0 S1 S2; field; split; assumption.
Qed.
Lemma col_v j i : (6 <= j)%nat -> (i < 3)%nat -> M (11 + i)%nat j = 0.
Proof. intros Hj Hi. destruct (le_lt_dec 14 j); [apply M_right; lia|apply M_co_v; lia]. Qed.
Lemma col_contact j : (6 <= j)%nat -> (j = 6%nat \/ j = 7%nat -> cs = b) -> wave (col j) (Q 2%nat / r).
Proof.
  intros Hj HE. apply contact; [intros i Hi; apply col_v; assumption|]. intros i Hi. rewrite col_traction by assumption.
  assert (cs = b -> cs / b = 1) as X by (intros ->; field; exact HB).
  destruct (Nat.eqb_spec j 6) as [E|_]; [rewrite X by auto; ring|]. destruct (Nat.eqb_spec j 7) as [E|_]; [rewrite X by auto; ring|reflexivity].
Qed.
(** without that, the column of the pressure is no eigenvector, whatever the eigenvalue *)
Lemma col_7_wrong mu_ : cs <> b -> ~ wave (col 7%nat) mu_.
Proof.
  intros N E. specialize (E 2%nat ltac:(assert (X := V_ge o P PL 0 ltac:(lia)); lia)).
  assert (U : forall i, (i < 3)%nat -> uu Q (g o P sm Q (col 7%nat)) i = 0) by (intros i Hi; rewrite (Gu o P sm PL Q OK) by exact Hi; apply col_v; lia).
  assert (W0 : g o P sm Q (col 7%nat) 0%nat = 0) by (rewrite (G0 o P sm PL Q); exact (M_co_01 0 7 ltac:(lia) ltac:(lia))).
  assert (W2 : g o P sm Q (col 7%nat) 2%nat = 0).
  { assert (X := U 0%nat ltac:(lia)). unfold uu in X. rewrite W0 in X. assert (R0 : 0 < r) by apply OK. cbn [Nat.add] in X.
    apply (Rmult_eq_reg_r (/ r)); [|apply Rinv_neq_0_compat; lra]. unfold Rdiv in X. lra. }
  rewrite W2, Rmult_0_r in E.
  pose proof (row_v o P sm sr ea src PL TH Q (g o P sm Q (col 7%nat)) OK HG HB 0 ltac:(lia) 0%nat ltac:(lia)) as RV. cbn [Nat.add] in RV. rewrite RV in E.
  rewrite !U, W0, (Gp o P sm PL TH Q OK HG), (Gs o P sm PL Q) in E by lia.
  assert (T := col_traction 7 0 ltac:(lia) ltac:(lia)). unfold traction_rate in T. cbn [Nat.eqb] in T. unfold delta in T, E. cbn [Nat.eqb] in T, E.
  assert (X : (1 - cs / b) * 1 = 0) by (rewrite <- T, <- E; ring).
  apply N. apply (Rmult_eq_reg_r (/ b)); [|apply Rinv_neq_0_compat, HB]. rewrite Rinv_r by exact HB. unfold Rdiv in X. lra.
Qed.
(** ** the columns are independent *)
Lemma cols_independent (c : vec) : cs = b -> (forall i, (i < V o)%nat -> rsum (V o) (fun j => M i j * c j) = 0) -> forall j, (j < V o)%nat -> c j = 0.
Proof.
  intros HE H. assert (V14 : (14 <= V o)%nat) by exact (V_ge o P PL 0 ltac:(lia)).
  assert (CL : forall j, (14 <= j < V o)%nat -> c j = 0).
  { intros j Hj. rewrite <- (H j ltac:(lia)). rewrite (rsum_single (V o) j) by (lia || (intros k Hk N; rewrite M_low by lia; rewrite (proj2 (Nat.eqb_neq j k)) by congruence; ring)).
    rewrite M_low, Nat.eqb_refl by lia. ring. }
  assert (H14 : forall i, (i < V o)%nat -> rsum 14 (fun j => M i j * c j) = 0).
  { intros i Hi. rewrite <- (H i Hi). replace (V o) with (14 + (V o - 14))%nat by lia. rewrite rsum_split, (rsum_zero (V o - 14)); [ring|]. intros k Hk. rewrite CL by lia. ring. }
  assert (CA : forall k, (k < 6)%nat -> c (8 + k)%nat = 0).
  { intros k Hk. rewrite <- (H14 (5 + k)%nat ltac:(lia)). rewrite (rsum_single 14 (8 + k)) by (lia || (intros j Hj N; destruct (le_lt_dec 6 j);
      [rewrite M_co_A by lia; rewrite (proj2 (Nat.eqb_neq j (8 + k))) by congruence; ring|rewrite M_ac_mid by lia; ring])).
    rewrite M_co_A, Nat.eqb_refl by lia. ring. }
  assert (H8 : forall i, (i < V o)%nat -> rsum 8 (fun j => M i j * c j) = 0).
  { intros i Hi. rewrite <- (H14 i Hi). change 14%nat with (8 + 6)%nat. rewrite rsum_split, (rsum_zero 6); [ring|]. intros k Hk. rewrite CA by lia. ring. }
  pose proof EB as EB'. destruct EB' as (L & (qi & HQ) & E).
  assert (LZ : forall j, (j < 3)%nat -> sqrt (/ l j) <> 0) by (intros j Hj; apply Rgt_not_eq, sqrt_lt_R0, Rinv_0_lt_compat, L, Hj).
  assert (CD : forall j, (j < 3)%nat -> c (3 + j)%nat = c j).
  { assert (K : forall j, (j < 3)%nat -> / 2 * sqrt (/ l j) * (c j - c (3 + j)%nat) = 0).
    { apply (inv_kernel 3 q qi _ HQ). intros i Hi. rewrite <- (H8 (11 + i)%nat ltac:(lia)).
      pose proof (M_ac_v i 0 Hi ltac:(lia)) as (E0 & E3). pose proof (M_ac_v i 1 Hi ltac:(lia)) as (E1 & E4). pose proof (M_ac_v i 2 Hi ltac:(lia)) as (E2 & E5).
      pose proof (M_co_v i 6 Hi ltac:(lia)) as E6. pose proof (M_co_v i 7 Hi ltac:(lia)) as E7. cbn [Nat.add] in *. cbn [rsum]. cbn [Nat.add]. rewrite E0, E1, E2, E3, E4, E5, E6, E7. ring. }
    intros j Hj. specialize (K j Hj). specialize (LZ j Hj). apply Rmult_integral in K. destruct K as [K|K]; [|lra].
    apply Rmult_integral in K. destruct K as [K|K]; [lra|contradiction]. }
  set (y := fun k => rsum 3 (fun j => q k j * (/ l j * c j))).
  assert (TOP : forall i, (i < 5)%nat -> sum3 (fun k => X2 i k * y k) + M i 6%nat * c 6%nat + M i 7%nat * c 7%nat = 0).
  { intros i Hi. rewrite <- (H8 i ltac:(lia)).
    pose proof (M_ac_top i 0 Hi ltac:(lia)) as (E0 & E3). pose proof (M_ac_top i 1 Hi ltac:(lia)) as (E1 & E4). pose proof (M_ac_top i 2 Hi ltac:(lia)) as (E2 & E5).
    pose proof (CD 0%nat ltac:(lia)) as D0. pose proof (CD 1%nat ltac:(lia)) as D1. pose proof (CD 2%nat ltac:(lia)) as D2. cbn [Nat.add] in *.
    cbn [rsum]. rewrite E0, E1, E2, E3, E4, E5, D0, D1, D2, !mm3. unfold y, sum3. cbn [rsum]. field. repeat split; apply Rgt_not_eq, L; lia. }
  assert (R0 : 0 < r) by apply OK.
  (* the other two columns carry no traction *)
  assert (X1K : forall j i, (j = 6 \/ j = 7)%nat -> (i < 3)%nat -> rsum 5 (fun k => X1 i k * M k j) = 0).
  { intros j i Hj Hi. assert (T := col_traction j i ltac:(lia) Hi). rewrite HE in T. replace (b / b) with 1 in T by (field; exact HB).
    assert (T0 : traction_rate (fun i => M i j) i = 0) by (rewrite T; destruct (Nat.eqb j 6); [ring|]; destruct (Nat.eqb j 7); ring). clear T.
    unfold traction_rate, sum3 in T0. cbn [Nat.mul Nat.add] in T0.
    assert (A5 : forall k, (k < 6)%nat -> M (5 + k)%nat j = 0) by (intros k Hk; rewrite M_co_A by lia; rewrite (proj2 (Nat.eqb_neq j (8 + k))) by lia; reflexivity).
    pose proof (A5 0%nat ltac:(lia)) as B0. pose proof (A5 1%nat ltac:(lia)) as B1. pose proof (A5 2%nat ltac:(lia)) as B2.
    pose proof (A5 3%nat ltac:(lia)) as B3. pose proof (A5 4%nat ltac:(lia)) as B4. pose proof (A5 5%nat ltac:(lia)) as B5. cbn [Nat.add] in *.
    rewrite B0, B1, B2, B3, B4, B5 in T0. rewrite !Pik_dir in T0 by (exact Hi || lia).
    apply (Rmult_eq_reg_l r); [|lra]. rewrite Rmult_0_r, <- T0. unfold Xi1, setblock. rewrite VIo, TH. unfold delta.
    idx3 i; cbn [rsum Nat.leb Nat.ltb Nat.add Nat.sub Nat.eqb Nat.mul andb]; field; lra. }
  assert (Y0 : forall k, (k < 3)%nat -> y k = 0).
  { assert (XIY : forall i, (i < 3)%nat -> rsum 3 (fun j => Xi i j * y j) = 0).
    { intros i Hi. transitivity (rsum 5 (fun k => X1 i k * (sum3 (fun a => X2 k a * y a) + M k 6%nat * c 6%nat + M k 7%nat * c 7%nat))
        - rsum 5 (fun k => X1 i k * M k 6%nat) * c 6%nat - rsum 5 (fun k => X1 i k * M k 7%nat) * c 7%nat).
      - unfold mm, sum3. set (yy := y). cbn [rsum]. ring.
      - rewrite !X1K by auto. rewrite (rsum_zero 5); [ring|]. intros k Hk. rewrite TOP by exact Hk. ring. }
    destruct EB as (L' & IQ & E'). intros k Hk.
    assert (IX : inverses 3 Xi (spec_inv 3 l q qi)) by (apply spec_inv_ok; [exact EB|exact HQ]).
    exact (inv_kernel 3 Xi _ y IX XIY k Hk). }
  assert (C3 : forall j, (j < 3)%nat -> c j = 0).
  { intros j Hj. assert (K := inv_kernel 3 q qi (fun j => / l j * c j) HQ Y0 j Hj). cbv beta in K. specialize (L j Hj).
    apply Rmult_integral in K. destruct K as [K|K]; [|exact K]. exfalso. assert (X := Rinv_0_lt_compat _ L). lra. }
  assert (C67 : forall j, (j < 2)%nat -> c (6 + j)%nat = 0).
  { intros j Hj. assert (T := TOP j ltac:(lia)). unfold sum3 in T. rewrite !Y0 in T by lia.
    rewrite !(M_co_01 j) in T by lia. destruct j as [|[|j]]; [| |lia]; cbn [Nat.eqb Nat.add] in *; lra. }
  intros j Hj. destruct (le_lt_dec 14 j); [apply CL; lia|]. destruct (le_lt_dec 8 j); [replace j with (8 + (j - 8))%nat by lia; apply CA; lia|].
  destruct (le_lt_dec 6 j); [replace j with (6 + (j - 6))%nat by lia; apply C67; lia|]. destruct (le_lt_dec 3 j); [|apply C3; lia].
  replace j with (3 + (j - 3))%nat by lia. rewrite CD by lia. apply C3. lia.
Qed.
End Eig.
