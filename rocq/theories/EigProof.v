(** Moving a state along any direction of primitive variables: the velocity of the conserved variables. *)
From Coq Require Import Reals ZArith Lra Psatz Lia FunctionalExtensionality.
From Coquelicot Require Import Coquelicot.
From Verif Require Import Base Options Sum Mat3 PhysModel PhysInst PhysSpec PhysProof PhysProof2 PhysProof5 PhysProps PhysProof7 RiemannProof RConsProof3 RConsProof4.
From Verif Require EqModel EqSpec.
Open Scope R_scope.

Section Move.
Variable o : options.
Variable P : par.
Variable sm : vec -> R * R * R.
Hypothesis PL : plain o P.
Hypothesis TH : THERMAL o = false.
Variable Q : vec.
Hypothesis OK : eos_ok (prm P) (Q 0%nat).
Hypothesis HG : Gamma_MG (prm P) (Q 0%nat) <> 0.
Hypothesis HB : b02 (prm P) <> 0.
Variable d : vec.
Notation r := (Q 0%nat).
Notation p := (pressure o P sm Q).
Notation moved := (moved o P sm Q d).
Definition g (k : nat) : R := Derive (fun t => moved t k) 0.
Let VIo := VI' o P PL.
Let R0 := r_pos' P Q OK.
Notation tp := (Cvec_to_Pvec o P sm). Notation tc := (Pvec_to_Cvec o P).

Lemma moved_A' t i j : (i < 3)%nat -> (j < 3)%nat -> get_A (moved t) i j = get_A Q i j + t * d (2 + 3 * j + i)%nat.
Proof. intros Hi Hj. unfold get_A at 1, RConsProof3.moved. rewrite (tc_A o P VIo), (tp_A o P sm VIo) by assumption. ring. Qed.
Lemma g_0 : is_derive (fun t : R => moved t 0%nat) 0 (d 0%nat).
Proof. apply (is_derive_ext (fun t => r + t * d 0%nat)); [intro t; symmetry; apply (moved_0 o P sm PL)|]. auto_derive; [exact I|ring]. Qed.
Lemma g_v i : (i < 3)%nat -> is_derive (fun t : R => moved t (2 + i)%nat) 0 (Q (2 + i)%nat / r * d 0%nat + r * d (11 + i)%nat).
Proof.
  intros Hi. apply (is_derive_ext (fun t => (t * d 0%nat + r) * (t * d (11 + i)%nat + Q (2 + i)%nat / r))).
  - intro t. unfold RConsProof3.moved. rewrite (tc_v o P VIo), (tp_v o P sm VIo), (tp_0 o P sm VIo) by exact Hi. reflexivity.
  - set (c := Q (2 + i)%nat / r). auto_derive; [exact I|cbn [Nat.add]; ring].
Qed.
Lemma g_A i j : (i < 3)%nat -> (j < 3)%nat -> is_derive (fun t : R => moved t (5 + 3 * i + j)%nat) 0 (d (2 + 3 * j + i)%nat).
Proof.
  intros Hi Hj. set (dd := d (2 + 3 * j + i)%nat). apply (is_derive_ext (fun t => get_A Q i j + t * dd)).
  - intro t. symmetry. exact (moved_A' t i j Hi Hj).
  - auto_derive; try exact I; ring.
Qed.
Lemma g_mV : MULTI o = true -> is_derive (fun t : R => moved t (mV o)) 0 (Q (mV o) / r * d 0%nat + r * d (mV o)).
Proof.
  intros MU. set (dm := d (mV o)). set (c := Q (mV o) / r).
  apply (is_derive_ext (fun t => (t * dm + c) * (t * d 0%nat + r))).
  - intro t. unfold RConsProof3.moved. rewrite (tc_l o P VIo) by exact MU. rewrite (tp_l o P sm VIo), (tp_0 o P sm VIo) by exact MU. reflexivity.
  - auto_derive; [exact I|ring].
Qed.
Lemma g_rest k : (14 <= k)%nat -> (MULTI o = true -> k <> mV o) -> is_derive (fun t : R => moved t k) 0 (d k).
Proof.
  intros Hk N. set (c := tp Q k). apply (is_derive_ext (fun t => t * d k + c)).
  - intro t. unfold RConsProof3.moved. rewrite (tc_rest o P _ k) by (rewrite ?TH; cbn; lia || exact N). reflexivity.
  - auto_derive; [exact I|ring].
Qed.
Lemma g_1 : ex_derive (fun t : R => moved t 1%nat) 0.
Proof.
  assert (R1 := R0).
  set (e := fun t : R => E_1 (prm P) (r + t * d 0%nat) (p + t * d 1%nat)).
  set (kin := fun t : R => dot3 (fun i => t * d (11 + i)%nat + Q (2 + i)%nat / r) (fun i => t * d (11 + i)%nat + Q (2 + i)%nat / r) / 2).
  set (dg := fun t : R => devGsq (fun i j => get_A Q i j + t * d (2 + 3 * j + i)%nat)).
  set (rc := fun t : R => if (-1 <? REACTION P)%Z then Qc P * (t * d (mV o) + tp Q (mV o) - 1) else 0).
  apply (ex_derive_ext_loc (fun t : R => (r + t * d 0%nat) * (e t + kin t + C_0 (prm P) (r + t * d 0%nat) / 4 * dg t + 0 + rc t))).
  - eapply filter_imp; [|exact (near_ok P Q OK HG d)]. intros t (N & G). unfold RConsProof3.moved.
    rewrite (tc_1 o P VIo (HR' o P PL)) by (rewrite (tp_0 o P sm VIo); lra). rewrite TH, (tp_0 o P sm VIo), (tp_1 o P sm VIo).
    replace (t * d 0%nat + r) with (r + t * d 0%nat) by ring. replace (t * d 1%nat + p) with (p + t * d 1%nat) by ring. unfold e, kin, dg, rc.
    rewrite (devGsq_meq (fun i j => get_A Q i j + t * d (2 + 3 * j + i)%nat) (fun i j => t * d (2 + 3 * j + i)%nat + tp Q (2 + 3 * j + i)%nat)).
    + unfold dot3, sum3. rewrite !(tp_v o P sm VIo) by lia. reflexivity.
    + intros i j Hi Hj. rewrite (tp_A o P sm VIo) by assumption. ring.
  - assert (A := dp_ref_ok _ _ OK). assert (B := de_ref_ok _ _ OK). assert (C := dGamma_ok _ _ OK). assert (D0 := dC0_ok _ _ OK HG).
    assert (De : ex_derive e 0).
    { unfold e, E_1. auto_derive. rewrite !Rmult_0_l, !Rplus_0_r. repeat split; try (eexists; eassumption).
      apply Rmult_integral_contrapositive_currified; [lra|exact HG]. }
    assert (Dk : ex_derive kin 0) by (unfold kin, dot3, sum3; auto_derive; exact I).
    assert (Dg : ex_derive dg 0) by (unfold dg, devGsq, dot3, sum3; auto_derive; exact I).
    assert (Dr : ex_derive rc 0) by (unfold rc; destruct (-1 <? REACTION P)%Z; auto_derive; exact I).
    auto_derive. rewrite !Rmult_0_l, !Rplus_0_r. repeat split; try assumption. eexists; exact D0.
Qed.
Lemma g_ok : has_velocity (fun k t => moved t k) 0 g.
Proof.
  intro k. unfold g. apply Derive_correct.
  destruct (index_cases false k) as [->|[->|[(i & Hi & ->)|[(m & n & Hm & Hn & ->)|[(T & _)|K]]]]]; [| | | |discriminate|].
  - eexists; exact g_0.
  - exact g_1.
  - eexists; exact (g_v i Hi).
  - eexists; exact (g_A m n Hm Hn).
  - cbn [b2n Nat.mul Nat.add] in K. destruct (MULTI o) eqn:MU.
    + destruct (Nat.eq_dec k (mV o)) as [->|N]; [eexists; exact (g_mV MU)|eexists; apply g_rest; [exact K|intros _; exact N]].
    + eexists; apply g_rest; [exact K|congruence].
Qed.
Lemma G0 : g 0%nat = d 0%nat. Proof. apply is_derive_unique, g_0. Qed.
Lemma Gv i : (i < 3)%nat -> g (2 + i)%nat = Q (2 + i)%nat / r * d 0%nat + r * d (11 + i)%nat. Proof. intros Hi. apply is_derive_unique, g_v, Hi. Qed.
Lemma GA i j : (i < 3)%nat -> (j < 3)%nat -> get_A g i j = d (2 + 3 * j + i)%nat.
Proof. intros Hi Hj. apply is_derive_unique, g_A; assumption. Qed.
Lemma Gu i : (i < 3)%nat -> uu Q g i = d (11 + i)%nat.
Proof. intros Hi. unfold uu, vv. rewrite (Gv i Hi), G0. assert (R1 := R0). field. lra. Qed.
Lemma g_now : at_time (fun k t => moved t k) 0 = Q.
Proof.
  apply functional_extensionality. intro k. unfold at_time, RConsProof3.moved.
  replace (fun i => 0 * d i + tp Q i) with (tp Q) by (apply functional_extensionality; intro i; ring).
  apply (tc_tp o P sm VIo (HM' o P PL) (HR' o P PL)); [assert (R1 := R0); lra|exact HG].
Qed.
Lemma Gp : pp o P sm Q g = d 1%nat.
Proof.
  assert (C := pressure_curve (fun k t => moved t k) g 0 g_ok o P sm). rewrite g_now in C. specialize (C OK HG (HM' o P PL)).
  unfold de_curve in C. rewrite g_now, TH, VIo in C. cbv zeta in C.
  assert (D := p_step o P sm PL Q OK HG d).
  assert (E := is_derive_unique _ _ _ D). assert (F := is_derive_unique _ _ _ C).
  transitivity (Derive (fun t : R => pressure o P sm (moved t)) 0); [|exact E].
  etransitivity; [|symmetry; exact F]. unfold pp, de_, vv, uu, vv, get_rhov. f_equal. f_equal. ring.
Qed.
(** the derivative of the stress on the interface by the columns of the distortion *)
Definition Pik (n : nat) (i m : nat) : R := dsigmadA r (c_s2 (prm P) r) (get_A Q) (gram (get_A Q)) (AdevG (get_A Q)) 0 i m n.
Lemma Gs i : (i < 3)%nat -> ss_ P Q g 0 i = dsigmadrho P Q 0 i * d 0%nat + sum3 (fun m => sum3 (fun n => Pik n i m * d (2 + 3 * n + m)%nat)).
Proof. intros Hi. unfold ss_. rewrite G0. unfold sum3. rewrite !GA by lia. reflexivity. Qed.

Variables (sr : mat -> R) (ea : EqModel.mat -> vec -> vec) (src : vec -> vec).
Variable s : R.
Hypothesis HC : 0 <= (p / (r * r) - dEdrho o P sm Q) / dEdp o P sm Q.
(** when the direction is one of a wave of speed v + s *)
Lemma g_wave : s * d 0%nat = r * d 11%nat ->
  (forall i, (i < 3)%nat -> s * (r * d (11 + i)%nat) = d 1%nat * delta i 0 - (dsigmadrho P Q 0 i * d 0%nat + sum3 (fun m => sum3 (fun n => Pik n i m * d (2 + 3 * n + m)%nat)))) ->
  (forall m n, (m < 3)%nat -> (n < 3)%nat -> s * d (2 + 3 * n + m)%nat = delta n 0 * mvec (get_A Q) (fun i => d (11 + i)%nat) m) ->
  s * d 1%nat = r * c_0 o P sm Q * c_0 o P sm Q * d 11%nat + sum3 (fun k => (sigma_col P Q 0 k - r * dsigmadrho P Q 0 k) * d (11 + k)%nat) ->
  (forall k, (14 <= k)%nat -> s * d k = 0) ->
  forall i, (i < V o)%nat -> rsum (V o) (fun j => EqModel.system_matrix o (gpr o P sm sr ea src) Q 0 i j * g j) = (Q 2%nat / r + s) * g i.
Proof.
  intros H0 Hv HA Hp HZ i Hi. change (Q 2%nat / r) with (vv Q 0). assert (R1 := R0).
  assert (V1 : V o = (14 + b2n (MULTI o) + LSET o)%nat) by (unfold V; rewrite VIo, TH; cbn [b2n]; lia).
  assert (M14 : mV o = 14%nat) by (unfold mV; rewrite VIo, TH; reflexivity).
  apply (rev_eigen o P sm sr ea src PL TH Q g OK HG HB HC s); [| | | | | |exact Hi].
  - rewrite G0, Gu by lia. exact H0.
  - intros k Hk. rewrite Gu, Gp, Gs by exact Hk. apply Hv, Hk.
  - intros a b Ha Hb. rewrite GA by assumption. rewrite HA by assumption. f_equal. unfold mvec, sum3. rewrite !Gu by lia. reflexivity.
  - rewrite Gp, Hp. unfold sum3. rewrite !Gu by lia. reflexivity.
  - intros MU. unfold g. rewrite (is_derive_unique _ _ _ (g_mV MU)). rewrite Gu by lia.
    transitivity (Q (mV o) / r * (s * d 0%nat) + r * (s * d (mV o))); [ring|]. rewrite H0, HZ by lia. cbn [Nat.add]. field. lra.
  - intros k Hk. unfold g. rewrite (is_derive_unique _ _ _ (g_rest k ltac:(lia) ltac:(intros MU; rewrite MU in V1; cbn [b2n] in V1; lia))). apply HZ. lia.
Qed.
End Move.
