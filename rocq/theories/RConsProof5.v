(** The velocity of a moved state, and the waves. *)
From Coq Require Import Reals ZArith Lra Psatz Lia FunctionalExtensionality.
From Coquelicot Require Import Coquelicot.
From Verif Require Import Base Options Sum Mat3 PhysModel PhysInst PhysSpec PhysProof PhysProof2 PhysProof5 PhysProps PhysProof7 RiemannProof RConsProof3 RConsProof4.
From Verif Require EqModel EqSpec.
Open Scope R_scope.

Section Vel.
Variable o : options.
Variable P : par.
Variable sm : vec -> R * R * R.
Hypothesis PL : plain o P.
Hypothesis TH : THERMAL o = false.
Variable Q : vec.
Hypothesis OK : eos_ok (prm P) (Q 0%nat).
Hypothesis HG : Gamma_MG (prm P) (Q 0%nat) <> 0.
Hypothesis HB : b02 (prm P) <> 0.
Variable d : vec.
Hypothesis DZ : forall k, (5 <= k < 11)%nat -> d k = 0.
Hypothesis DZ' : forall k, (14 <= k)%nat -> d k = 0.
Notation r := (Q 0%nat).
Notation p := (pressure o P sm Q).
Notation moved := (moved o P sm Q d).
Definition w (k : nat) : R := Derive (fun t => moved t k) 0.
Let VIo := VI' o P PL.
Let R0 := r_pos' P Q OK.
Notation tp := (Cvec_to_Pvec o P sm). Notation tc := (Pvec_to_Cvec o P).

Lemma w_0 : is_derive (fun t : R => moved t 0%nat) 0 (d 0%nat).
Proof. apply (is_derive_ext (fun t => r + t * d 0%nat)); [intro t; symmetry; apply (moved_0 o P sm PL)|]. auto_derive; [exact I|ring]. Qed.
Lemma w_v i : (i < 3)%nat -> is_derive (fun t : R => moved t (2 + i)%nat) 0 (Q (2 + i)%nat / r * d 0%nat + r * d (11 + i)%nat).
Proof.
  intros Hi. apply (is_derive_ext (fun t => (t * d 0%nat + r) * (t * d (11 + i)%nat + Q (2 + i)%nat / r))).
  - intro t. unfold RConsProof3.moved. rewrite (tc_v o P VIo), (tp_v o P sm VIo), (tp_0 o P sm VIo) by exact Hi. reflexivity.
  - set (c := Q (2 + i)%nat / r). auto_derive; [exact I|cbn [Nat.add]; ring].
Qed.
Lemma w_A i j : (i < 3)%nat -> (j < 3)%nat -> is_derive (fun t : R => moved t (5 + 3 * i + j)%nat) 0 (if Nat.eqb j 0 then d (2 + i)%nat else 0).
Proof.
  intros Hi Hj. apply (is_derive_ext (fun t => get_A Q i j + t * (if Nat.eqb j 0 then d (2 + i)%nat else 0))).
  - intro t. symmetry. exact (moved_A o P sm PL Q d DZ t i j Hi Hj).
  - destruct (Nat.eqb j 0); auto_derive; try exact I; cbn [Nat.add]; ring.
Qed.
Lemma w_mV : MULTI o = true -> is_derive (fun t : R => moved t (mV o)) 0 (Q (mV o) / r * d 0%nat).
Proof.
  intros MU. assert (M : mV o = 14%nat) by (unfold mV; rewrite VIo, TH; reflexivity).
  apply (is_derive_ext (fun t => Q (mV o) / r * (t * d 0%nat + r))).
  - intro t. unfold RConsProof3.moved. rewrite (tc_l o P VIo) by exact MU. rewrite (tp_l o P sm VIo), (tp_0 o P sm VIo) by exact MU.
    rewrite (DZ' (mV o)) by lia. match goal with |- ?a = ?b => change (@eq R a b) end. ring.
  - set (c := Q (mV o) / r). auto_derive; [exact I|ring].
Qed.
Lemma w_rest k : (14 <= k)%nat -> (MULTI o = true -> k <> mV o) -> is_derive (fun t : R => moved t k) 0 0.
Proof.
  intros Hk N. apply (is_derive_ext (fun _ => tp Q k)).
  - intro t. unfold RConsProof3.moved. rewrite (tc_rest o P _ k) by (rewrite ?TH; cbn; lia || exact N). rewrite (DZ' k Hk).
    match goal with |- ?a = ?b => change (@eq R a b) end. ring.
  - exact (is_derive_const (V := R_NormedModule) (tp Q k) 0).
Qed.
Lemma w_1 : ex_derive (fun t : R => moved t 1%nat) 0.
Proof.
  assert (R1 := R0).
  set (e := fun t : R => E_1 (prm P) (r + t * d 0%nat) (p + t * d 1%nat)).
  set (kin := fun t : R => dot3 (fun i => t * d (11 + i)%nat + Q (2 + i)%nat / r) (fun i => t * d (11 + i)%nat + Q (2 + i)%nat / r) / 2).
  set (dg := fun t : R => devGsq (fun i j => get_A Q i j + t * (if Nat.eqb j 0 then d (2 + i)%nat else 0))).
  set (rc := fun t : R => if (-1 <? REACTION P)%Z then Qc P * (t * d (mV o) + tp Q (mV o) - 1) else 0).
  apply (ex_derive_ext_loc (fun t : R => (r + t * d 0%nat) * (e t + kin t + C_0 (prm P) (r + t * d 0%nat) / 4 * dg t + 0 + rc t))).
  - eapply filter_imp; [|exact (near_ok P Q OK HG d)]. intros t (N & G). unfold RConsProof3.moved.
    rewrite (tc_1 o P VIo (HR' o P PL)) by (rewrite (tp_0 o P sm VIo); lra). rewrite TH, (tp_0 o P sm VIo), (tp_1 o P sm VIo).
    replace (t * d 0%nat + r) with (r + t * d 0%nat) by ring. replace (t * d 1%nat + p) with (p + t * d 1%nat) by ring. unfold e, kin, dg, rc.
    rewrite (devGsq_meq (fun i j => get_A Q i j + t * (if Nat.eqb j 0 then d (2 + i)%nat else 0)) (fun i j => t * d (2 + 3 * j + i)%nat + tp Q (2 + 3 * j + i)%nat)).
    + unfold dot3, sum3. rewrite !(tp_v o P sm VIo) by lia. reflexivity.
    + intros i j Hi Hj. rewrite (tp_A o P sm VIo) by assumption. destruct (Nat.eqb_spec j 0) as [->|NJ]; [rewrite Nat.mul_0_r, Nat.add_0_r|rewrite DZ by lia]; ring.
  - assert (A := dp_ref_ok _ _ OK). assert (B := de_ref_ok _ _ OK). assert (C := dGamma_ok _ _ OK). assert (D0 := dC0_ok _ _ OK HG).
    assert (De : ex_derive e 0).
    { unfold e, E_1. auto_derive. rewrite !Rmult_0_l, !Rplus_0_r. repeat split; try (eexists; eassumption).
      apply Rmult_integral_contrapositive_currified; [lra|exact HG]. }
    assert (Dk : ex_derive kin 0) by (unfold kin, dot3, sum3; auto_derive; exact I).
    assert (Dg : ex_derive dg 0) by (unfold dg, devGsq, dot3, sum3; cbn [Nat.eqb]; auto_derive; exact I).
    assert (Dr : ex_derive rc 0) by (unfold rc; destruct (-1 <? REACTION P)%Z; auto_derive; exact I).
    auto_derive. rewrite !Rmult_0_l, !Rplus_0_r. repeat split; try assumption. eexists; exact D0.
Qed.
Lemma w_ok : has_velocity (fun k t => moved t k) 0 w.
Proof.
  intro k. unfold w. apply Derive_correct.
  destruct (index_cases false k) as [->|[->|[(i & Hi & ->)|[(m & n & Hm & Hn & ->)|[(T & _)|K]]]]]; [| | | |discriminate|].
  - eexists; exact w_0.
  - exact w_1.
  - eexists; exact (w_v i Hi).
  - eexists; exact (w_A m n Hm Hn).
  - cbn [b2n Nat.mul Nat.add] in K. destruct (MULTI o) eqn:MU.
    + destruct (Nat.eq_dec k (mV o)) as [->|N]; [eexists; exact (w_mV MU)|eexists; apply w_rest; [exact K|intros _; exact N]].
    + eexists; apply w_rest; [exact K|congruence].
Qed.
Lemma W0 : w 0%nat = d 0%nat. Proof. apply is_derive_unique, w_0. Qed.
Lemma Wv i : (i < 3)%nat -> w (2 + i)%nat = Q (2 + i)%nat / r * d 0%nat + r * d (11 + i)%nat. Proof. intros Hi. apply is_derive_unique, w_v, Hi. Qed.
Lemma WA i j : (i < 3)%nat -> (j < 3)%nat -> get_A w i j = if Nat.eqb j 0 then d (2 + i)%nat else 0.
Proof. intros Hi Hj. apply is_derive_unique, w_A; assumption. Qed.
Lemma Wu i : (i < 3)%nat -> uu Q w i = d (11 + i)%nat.
Proof. intros Hi. unfold uu, vv. rewrite (Wv i Hi), W0. assert (R1 := R0). field. lra. Qed.
Lemma moved_now : at_time (fun k t => moved t k) 0 = Q.
Proof.
  apply functional_extensionality. intro k. unfold at_time, RConsProof3.moved.
  replace (fun i => 0 * d i + tp Q i) with (tp Q) by (apply functional_extensionality; intro i; ring).
  apply (tc_tp o P sm VIo (HM' o P PL) (HR' o P PL)); [assert (R1 := R0); lra|exact HG].
Qed.
Lemma Wp : pp o P sm Q w = d 1%nat.
Proof.
  assert (C := pressure_curve (fun k t => moved t k) w 0 w_ok o P sm). rewrite moved_now in C. specialize (C OK HG (HM' o P PL)).
  unfold de_curve in C. rewrite moved_now, TH, VIo in C. cbv zeta in C.
  assert (D := p_step o P sm PL Q OK HG d). 
  assert (E := is_derive_unique _ _ _ D). assert (F := is_derive_unique _ _ _ C). 
  transitivity (Derive (fun t : R => pressure o P sm (moved t)) 0); [|exact E].
  etransitivity; [|symmetry; exact F]. unfold pp, de_, vv, uu, vv, get_rhov. f_equal. f_equal. ring.
Qed.
Lemma Ws i : (i < 3)%nat -> ss_ P Q w 0 i = dsigmadrho P Q 0 i * d 0%nat + sum3 (fun m => dsigmadA_dir P Q 0 i m * d (2 + m)%nat).
Proof.
  intros Hi. unfold ss_. rewrite W0. f_equal.
  assert (SC := fun m Hm => stress_derivative_column P Q 0 i m Hi ltac:(lia) Hm). cbv zeta in SC.
  unfold sum3. rewrite !SC, !WA by lia. cbn [Nat.eqb]. ring.
Qed.
End Vel.
