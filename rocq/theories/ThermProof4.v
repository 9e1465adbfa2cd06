(** The matrix of eigenvectors with heat conduction: its acoustic columns and the contact one. *)
From Coq Require Import Reals ZArith Lra Psatz Lia FunctionalExtensionality.
From Coquelicot Require Import Coquelicot.
From Verif Require Import Base Options Sum Mat3 PhysModel PhysInst PhysSpec PhysProof PhysProof2 PhysProof5 PhysProps PhysProof7 WaveProps.
From Verif Require Import RiemannModel RConsModel RConsSpec RConsProof RConsProof2 RConsProof3 RConsProof4 RConsProof5 RConsProof6 ThermProof ThermProof2 ThermProof3.
From Verif Require EqModel EqSpec EigProof EigProof2.
Open Scope R_scope.

Lemma mm4 A B i j : mm 4 A B i j = rsum 4 (fun k => A i k * B k j). Proof. reflexivity. Qed.
Section Eig.
Variable o : options.
Variable P : par.
Variable sm : vec -> R * R * R.
Variable inverse : nat -> mat -> mat.
Variable eigensolve : nat -> mat -> vec * mat.
Hypothesis INV : inverse_ok inverse.
Hypothesis PL : plain o P.
Hypothesis TH : THERMAL o = true.
Variable Q : vec.
Notation r := (Q 0%nat).
Notation p := (pressure o P sm Q).
Notation T0 := (temperature_mg (prm P) r p).
Notation X1 := (Xi1 o P r p Q 0).
Notation X2 := (Xi2 o P sm r p Q 0).
Notation Xi := (mm 5 X1 X2).
Notation l := (fst (eigensolve 4%nat Xi)).
Notation q := (snd (eigensolve 4%nat Xi)).
Hypothesis OK : eos_ok (prm P) r.
Hypothesis HG : Gamma_MG (prm P) r <> 0.
Hypothesis HB : b02 (prm P) <> 0.
Hypothesis HV : cv (prm P) <> 0.
Hypothesis HY : hyperbolic o P sm Q.
Hypothesis HT : 0 <= ca2 (prm P) * T0 / cv (prm P).
Variables (sr : mat -> R) (ea : EqModel.mat -> vec -> vec) (src : vec -> vec).
Notation w d := (w o P sm Q d).
Notation cs := (c_s2 (prm P) r). Notation b := (b02 (prm P)).
Notation trac d i := (d 1%nat * delta i 0 - (dsigmadrho P Q 0 i * d 0%nat + sum3 (fun m => dsigmadA_dir P Q 0 i m * d (2 + m)%nat))).

(** a direction in the primitive variables that only moves density, pressure, the first column of the distortion, the velocity and the first
    component of the thermal impulse *)
Lemma dir_wave (d : vec) s : (forall k, (5 <= k < 11)%nat -> d k = 0) -> (forall k, (15 <= k)%nat -> d k = 0) ->
  s * d 0%nat = r * d 11%nat ->
  (forall i, (i < 3)%nat -> s * (r * d (11 + i)%nat) = trac d i) ->
  (forall m, (m < 3)%nat -> s * d (2 + m)%nat = mvec (get_A Q) (fun i => d (11 + i)%nat) m) ->
  s * (r * d 14%nat) = dTdrho (prm P) r p * d 0%nat + dTdp (prm P) r * d 1%nat ->
  s * d 1%nat = r * c_0 o P sm Q * c_0 o P sm Q * d 11%nat + sum3 (fun k => (sigma_col P Q 0 k - r * dsigmadrho P Q 0 k) * d (11 + k)%nat)
    + r * c_h P r T0 * c_h P r T0 / dTdp (prm P) r * d 14%nat ->
  forall i, (i < V o)%nat -> rsum (V o) (fun j => EqModel.system_matrix o (gpr o P sm sr ea src) Q 0 i j * w d j) = (Q 2%nat / r + s) * w d i.
Proof.
  intros DZ DZ' H0 Hv HA HJ Hp i Hi. assert (R0 : 0 < r) by apply OK. assert (N : r <> 0) by lra. assert (VI0 : VISCOUS o = true) by apply PL.
  change (Q 2%nat / r) with (vv Q 0).
  apply (ThermProof2.rev_eigen o P sm sr ea src PL TH Q (w d) OK HG HB HV HY HT s); [| | | | | | |exact Hi].
  - rewrite (W0 o P sm PL Q d), (Wu o P sm PL Q OK d) by lia. exact H0.
  - intros k Hk. rewrite (Wu o P sm PL Q OK d), (Wtp o P sm PL TH Q OK HG d DZ DZ'), (Ws o P sm PL Q d DZ k Hk) by exact Hk.
    exact (Hv k Hk).
  - intros m n Hm Hn. rewrite (WA o P sm PL Q d DZ m n Hm Hn). unfold delta. destruct (Nat.eqb n 0); [|ring].
    rewrite HA by exact Hm. unfold mvec, sum3. rewrite !(Wu o P sm PL Q OK d) by lia. ring.
  - intros k Hk. rewrite (WtJ o P sm PL TH Q OK d) by exact Hk. destruct (Nat.eq_dec k 0) as [-> |NK].
    + unfold tt_. rewrite (Wtp o P sm PL TH Q OK HG d DZ DZ'), (W0 o P sm PL Q d). unfold delta. cbn [Nat.eqb Nat.add]. rewrite HJ. ring.
    + rewrite DZ' by lia. unfold delta. rewrite (proj2 (Nat.eqb_neq _ _) NK). ring.
  - rewrite (Wtp o P sm PL TH Q OK HG d DZ DZ'), Hp. unfold sum3. rewrite !(Wu o P sm PL Q OK d), (WtJ o P sm PL TH Q OK d) by lia. reflexivity.
  - intros MU. unfold RConsProof5.w at 1. rewrite (is_derive_unique _ _ _ (wt_mV o P sm PL TH Q d DZ' MU)). rewrite (Wu o P sm PL Q OK d) by lia.
    transitivity (Q (mV o) / r * (s * d 0%nat)); [ring|]. rewrite H0. cbn [Nat.add]. field. exact N.
  - intros k Hk. assert (V1 : V o = (17 + b2n (MULTI o) + LSET o)%nat) by (unfold V; rewrite VI0, TH; cbn [b2n]; lia).
    assert (M17 : mV o = 17%nat) by (unfold mV; rewrite VI0, TH; reflexivity).
    assert (K17 : (17 <= k)%nat) by lia.
    assert (KM : MULTI o = true -> k <> mV o) by (intros MU; rewrite MU in V1; cbn [b2n] in V1; lia).
    unfold RConsProof5.w. rewrite (is_derive_unique _ _ _ (wt_rest o P sm TH Q d DZ' k K17 KM)). ring.
Qed.
Notation wave d lam := (forall i, (i < V o)%nat ->
  rsum (V o) (fun j => EqModel.system_matrix o (gpr o P sm sr ea src) Q 0 i j * w d j) = lam * w d i).

Lemma acoustic_dir (d u : vec) s : s <> 0 -> (forall i, (i < 5)%nat -> s * d i = rsum 4 (fun k => X2 i k * u k)) -> (forall i, (i < 4)%nat -> d (11 + i)%nat = u i) ->
  (forall k, (5 <= k < 11)%nat -> d k = 0) -> (forall k, (15 <= k)%nat -> d k = 0) ->
  (forall i, (i < 4)%nat -> rsum 4 (fun j => Xi i j * u j) = s * s * u i) -> wave d (Q 2%nat / r + s).
Proof.
  intros S0 D5 DV DM DL EX i Hi. assert (R0 : 0 < r) by apply OK. assert (VIo : VISCOUS o = true) by apply PL.
  assert (HPx : THERMAL o = false -> invertible 3 (dsigmadA_dir P Q 0)) by (rewrite TH; discriminate).
  assert (RW : forall k, (k < 4)%nat -> s * u k = rsum 5 (fun j => X1 k j * d j)).
  { intros k Hk. apply (Rmult_eq_reg_l s); [|exact S0]. transitivity (rsum 4 (fun j => Xi k j * u j)); [rewrite EX by exact Hk; ring|].
    rewrite <- rsum_scal. rewrite (rsum_ext 5 _ (fun j => X1 k j * rsum 4 (fun a => X2 j a * u a))) by (intros j Hj; rewrite <- D5 by exact Hj; ring).
    unfold mm. cbn [rsum]. ring. }
  apply (dir_wave d s DM DL); [| | | | |exact Hi].
  - rewrite D5 by lia. change 11%nat with (11 + 0)%nat. rewrite DV by lia. unfold Xi2, addblock, setblock. rewrite VIo, TH. cbn -[c_h dTdp temperature_mg]. ring.
  - intros k Hk. rewrite DV by lia. transitivity (r * (s * u k)); [ring|]. rewrite RW by lia. unfold Xi1, setblock. rewrite VIo, TH. unfold delta, sum3.
    idx3 k; cbn [rsum Nat.leb Nat.ltb Nat.add Nat.sub Nat.eqb Nat.mul andb]; field; lra.
  - intros m Hm. rewrite D5 by lia. unfold mvec, sum3. rewrite !DV by lia. cbn [rsum].
    rewrite !(X2_A o P sm VIo Q HPx), (X2_A3 o P sm VIo Q m TH Hm) by lia. ring.
  - change 14%nat with (11 + 3)%nat. rewrite DV by lia. transitivity (r * (s * u 3%nat)); [ring|]. rewrite RW by lia. unfold Xi1, setblock. rewrite VIo, TH.
    cbn [rsum Nat.leb Nat.ltb Nat.add Nat.sub Nat.eqb Nat.mul andb]. field. lra.
  - rewrite D5 by lia. change 14%nat with (11 + 3)%nat. change (d 11%nat) with (d (11 + 0)%nat). unfold sum3. rewrite !DV by lia. unfold Xi2, addblock, setblock. rewrite VIo, TH. cbn [rsum Nat.leb Nat.ltb Nat.add Nat.sub andb]. ring.
Qed.

Variable M : mat.
Hypothesis HM : eigen o P sm inverse eigensolve Q 0 = Ok M.
Notation col j := (fun i => M i j).
Notation tmp1 := (fun i j => / 2 * mm 4 X2 q i j * / l j).
Notation tmp2 := (fun i j => / 2 * q i j * sqrt (/ l j)).
Notation Pb := (fun i j : nat => dsigmadA r b (get_A Q) (mmul (mtr (get_A Q)) (get_A Q)) (AdevG (get_A Q)) 0 i j 0).
Notation Tr := (dTdrho (prm P) r p). Notation Tp := (dTdp (prm P) r).
Notation bb := (fun i => Tp * dsigmadrho P Q 0 i + (if Nat.eqb i 0 then Tr else 0)).
Notation cc := (1 / (rsum 3 (fun k => inverse 3%nat (mm 3 Pb (get_A Q)) 0%nat k * bb k) + Tp / r)).
Lemma VI0 : VISCOUS o = true. Proof. apply PL. Qed.
Ltac open := pose proof HM as HM'; unfold eigen in HM'; rewrite VI0, TH in HM'; cbn [negb] in HM'; apply EigProof2.Ok_inj in HM'; rewrite <- HM'; clear HM';
  unfold setblock, RiemannModel.n1; rewrite ?TH; cbn [b2n Nat.add].
Ltac entry := pose proof HM as HM'; unfold eigen in HM'; rewrite VI0, TH in HM'; cbn [negb] in HM'; injection HM' as <-;
  unfold setblock, RiemannModel.n1; rewrite ?TH; cbn [b2n Nat.add Nat.leb Nat.ltb Nat.sub Nat.eqb andb].
Ltac i4 j := destruct j as [|[|[|[|j]]]]; [| | | |lia].
Lemma M_top i j : (i < 5)%nat -> (j < 4)%nat -> M i j = tmp1 i j /\ M i (4 + j)%nat = tmp1 i j.
Proof.
  intros Hi Hj. entry.
  (destruct i as [|[|[|[|[|i]]]]]; [| | | | |lia]); i4 j; cbn [b2n Nat.add Nat.leb Nat.ltb Nat.sub Nat.eqb andb]; split; reflexivity.
Qed.
Lemma M_mid i j : (5 <= i < 11)%nat -> (j < 9)%nat -> M i j = 0.
Proof.
  intros Hi Hj. entry.
  do 5 (destruct i as [|i]; [lia|]). (destruct i as [|[|[|[|[|[|i]]]]]]; [| | | | | |lia]); (do 9 (destruct j as [|j]; [reflexivity|])); lia.
Qed.
Lemma M_vel i j : (i < 4)%nat -> (j < 4)%nat -> M (11 + i)%nat j = tmp2 i j /\ M (11 + i)%nat (4 + j)%nat = - tmp2 i j.
Proof. intros Hi Hj. entry. i4 i; i4 j; cbn [b2n Nat.add Nat.leb Nat.ltb Nat.sub Nat.eqb andb]; split; reflexivity. Qed.
Lemma M_low i j : (15 <= i)%nat -> (j < 15)%nat -> M i j = 0.
Proof.
  intros Hi Hj. open.
  replace (Nat.leb 15 i && Nat.ltb i (V o) && Nat.eqb i j)%bool with false
    by (symmetry; rewrite (proj2 (Nat.eqb_neq i j)) by lia; apply Bool.andb_false_r).
  repeat match goal with |- context [Nat.ltb i ?c] => rewrite (proj2 (Nat.ltb_ge i c)) by lia end. rewrite ?Bool.andb_false_r. reflexivity.
Qed.
Lemma M_8v i : (i < 4)%nat -> M (11 + i)%nat 8%nat = 0.
Proof. intros Hi. entry. i4 i; reflexivity. Qed.
Lemma M_80 : M 0%nat 8%nat = - cc * Tp. Proof. entry. reflexivity. Qed.
Lemma M_81 : M 1%nat 8%nat = cc * Tr. Proof. entry. reflexivity. Qed.
Lemma M_8A i : (i < 3)%nat -> M (2 + i)%nat 8%nat = cc * rsum 3 (fun k => inverse 3 Pb i k * bb k).
Proof. intros Hi. entry. idx3 i; reflexivity. Qed.

Hypothesis EB : eigenbasis 4 Xi l q.
Lemma col_sound j : (j < 4)%nat -> wave (col j) (Q 2%nat / r + sqrt (l j)) /\ wave (col (4 + j)%nat) (Q 2%nat / r - sqrt (l j)).
Proof.
  intros Hj. destruct EB as (L & _ & E). specialize (L j Hj). assert (Z : 0 < sqrt (l j)) by (apply sqrt_lt_R0, L). assert (ZZ := sqrt_sqrt (l j) (Rlt_le _ _ L)).
  assert (TQ : forall i, (i < 4)%nat -> rsum 4 (fun k => Xi i k * (/ 2 * q k j * / sqrt (l j))) = l j * (/ 2 * q i j * / sqrt (l j))).
  { intros i Hi. specialize (E i j Hi Hj). transitivity (/ 2 * / sqrt (l j) * rsum 4 (fun k => Xi i k * q k j)); [cbn [rsum]; ring|]. rewrite E. ring. }
  split.
  - apply (acoustic_dir _ (fun i => / 2 * q i j * / sqrt (l j))).
    + lra.
    + intros i Hi. cbv beta. rewrite (proj1 (M_top i j Hi Hj)). cbv beta. rewrite mm4. cbn [rsum]. set (z := sqrt (l j)) in *. replace (/ l j) with (/ (z * z)) by (rewrite ZZ; reflexivity). field. lra.
    + intros i Hi. cbv beta. rewrite (proj1 (M_vel i j Hi Hj)). cbv beta. rewrite EigProof2.inv_sqrt' by exact L. reflexivity.
    + intros k Hk. cbv beta. apply M_mid; lia.
    + intros k Hk. cbv beta. apply M_low; lia.
    + intros i Hi. cbv beta. rewrite TQ by exact Hi. rewrite ZZ. reflexivity.
  - replace (Q 2%nat / r - sqrt (l j)) with (Q 2%nat / r + - sqrt (l j)) by ring. apply (acoustic_dir _ (fun i => - (/ 2 * q i j * / sqrt (l j)))).
    + lra.
    + intros i Hi. cbv beta. rewrite (proj2 (M_top i j Hi Hj)). cbv beta. rewrite mm4. cbn [rsum]. set (z := sqrt (l j)) in *. replace (/ l j) with (/ (z * z)) by (rewrite ZZ; reflexivity). field. lra.
    + intros i Hi. cbv beta. rewrite (proj2 (M_vel i j Hi Hj)). cbv beta. rewrite EigProof2.inv_sqrt' by exact L. reflexivity.
    + intros k Hk. cbv beta. apply M_mid; lia.
    + intros k Hk. cbv beta. apply M_low; lia.
    + intros i Hi. cbv beta. transitivity (- rsum 4 (fun k => Xi i k * (/ 2 * q k j * / sqrt (l j)))); [cbn [rsum]; ring|]. rewrite TQ by exact Hi. rewrite <- ZZ at 1. ring.
Qed.
Lemma col_contact : cs = b -> invertible 3 (dsigmadA_dir P Q 0) -> wave (col 8%nat) (Q 2%nat / r).
Proof.
  intros CB HP i Hi. rewrite <- (Rplus_0_r (Q 2%nat / r)).
  assert (V0 : forall k, (k < 3)%nat -> M (11 + k)%nat 8%nat = 0) by (intros k Hk; apply M_8v; lia).
  apply (dir_wave (col 8%nat) 0); cbv beta; [intros k Hk; apply M_mid; lia|intros k Hk; apply M_low; lia| | | | | |exact Hi].
  - change (M 11%nat 8%nat) with (M (11 + 0)%nat 8%nat). rewrite V0 by lia. ring.
  - intros k Hk. rewrite V0 by exact Hk.
    assert (PI := fun m Hm => EigProof2.I1_inv P inverse INV Q HB HP k m Hk Hm). 
    assert (D : forall m, (m < 3)%nat -> rsum 3 (fun n => dsigmadA_dir P Q 0 k n * inverse 3 Pb n m) = eye k m).
    { intros m Hm. specialize (PI m Hm). rewrite CB in PI. replace (b / b * eye k m) with (eye k m) in PI by (field; exact HB). rewrite <- PI.
      apply rsum_ext. intros n Hn. rewrite (EigProof2.Pik_dir P Q k n Hk Hn). reflexivity. }
    set (B := bb). set (C := 1 / (rsum 3 (fun k => inverse 3%nat (mm 3 Pb (get_A Q)) 0%nat k * B k) + Tp / r)). set (I1 := inverse 3 Pb) in *.
    assert (E0 : M 0%nat 8%nat = - C * Tp) by exact M_80. assert (E1 : M 1%nat 8%nat = C * Tr) by exact M_81.
    assert (E8 : forall m, (m < 3)%nat -> M (2 + m)%nat 8%nat = C * rsum 3 (fun n => I1 m n * B n)) by exact M_8A.
    rewrite E0, E1. unfold sum3. rewrite !E8 by lia. clearbody I1 C.
    assert (S : dsigmadA_dir P Q 0%nat k 0%nat * rsum 3 (fun n => I1 0%nat n * B n) + dsigmadA_dir P Q 0%nat k 1%nat * rsum 3 (fun n => I1 1%nat n * B n) + dsigmadA_dir P Q 0%nat k 2%nat * rsum 3 (fun n => I1 2%nat n * B n) = B k).
    { assert (D0 := D 0%nat ltac:(lia)). assert (D1 := D 1%nat ltac:(lia)). assert (D2 := D 2%nat ltac:(lia)). cbn [rsum] in *.
      transitivity ((0 + dsigmadA_dir P Q 0%nat k 0%nat * I1 0%nat 0%nat + dsigmadA_dir P Q 0%nat k 1%nat * I1 1%nat 0%nat + dsigmadA_dir P Q 0%nat k 2%nat * I1 2%nat 0%nat) * B 0%nat
        + (0 + dsigmadA_dir P Q 0%nat k 0%nat * I1 0%nat 1%nat + dsigmadA_dir P Q 0%nat k 1%nat * I1 1%nat 1%nat + dsigmadA_dir P Q 0%nat k 2%nat * I1 2%nat 1%nat) * B 1%nat
        + (0 + dsigmadA_dir P Q 0%nat k 0%nat * I1 0%nat 2%nat + dsigmadA_dir P Q 0%nat k 1%nat * I1 1%nat 2%nat + dsigmadA_dir P Q 0%nat k 2%nat * I1 2%nat 2%nat) * B 2%nat); [ring|].
      rewrite D0, D1, D2. unfold eye. idx3 k; cbn [Nat.eqb]; ring. }
    transitivity (C * (Tr * delta k 0 + Tp * dsigmadrho P Q 0 k - B k)); [|rewrite <- S; ring].
    unfold B, delta. destruct (Nat.eqb k 0); ring.
  - intros m Hm. unfold mvec, sum3. rewrite !V0 by lia. ring.
  - change (M 14%nat 8%nat) with (M (11 + 3)%nat 8%nat). rewrite M_8v by lia. rewrite M_80, M_81. ring.
  - change (M 14%nat 8%nat) with (M (11 + 3)%nat 8%nat). change (M 11%nat 8%nat) with (M (11 + 0)%nat 8%nat). unfold sum3. rewrite !M_8v by lia. ring.
Qed.
Lemma col_moves j k : (j < 9)%nat -> is_derive (fun t : R => Pvec_to_Cvec o P (fun i => Cvec_to_Pvec o P sm Q i + t * col j i) k) 0 (w (col j) k).
Proof.
  intros Hj. apply (is_derive_ext (fun t => moved o P sm Q (col j) t k)).
  - intro t. unfold moved. f_equal. apply functional_extensionality. intro i. ring.
  - refine (wt_ok o P sm PL TH Q OK HG (col j) _ _ k); intros n Hn; [apply M_mid; lia|apply M_low; lia].
Qed.
End Eig.
