(** The rows of the quasi-linear matrix applied to a vector, in terms of the increments of the primitive variables. *)
From Coq Require Import Reals ZArith Lra Psatz Lia FunctionalExtensionality.
From Coquelicot Require Import Coquelicot.
From Verif Require Import Base Options Sum Mat3 PhysModel PhysInst PhysSpec PhysProof PhysProof2 PhysProof5 PhysProps.
From Verif Require EqModel EqSpec EqProof FvSpec FvProps RiemannProof RiemannProof2.
Import List ListNotations.
Open Scope R_scope.

Lemma dplus : forall (f g : R -> R) x a b, is_derive f x a -> is_derive g x b -> is_derive (fun t : R => f t + g t) x (a + b).
Proof. intros f g x a b F G. exact (is_derive_plus f g x a b F G). Qed.
Lemma dminus : forall (f g : R -> R) x a b, is_derive f x a -> is_derive g x b -> is_derive (fun t : R => f t - g t) x (a - b).
Proof. intros f g x a b F G. exact (is_derive_minus f g x a b F G). Qed.
Lemma dmul : forall (f g : R -> R) x a b, is_derive f x a -> is_derive g x b -> is_derive (fun t : R => f t * g t) x (a * g x + f x * b).
Proof. intros f g x a b F G. exact (is_derive_mult f g x a b F G Rmult_comm). Qed.
Lemma dscal : forall (f : R -> R) c x a, is_derive f x a -> is_derive (fun t : R => f t * c) x (a * c).
Proof.
  intros f c x a F. replace (a * c) with (a * c + f x * 0) by ring. apply (dmul f (fun _ => c)); [exact F|exact (is_derive_const c x)].
Qed.
Lemma deq : forall (f : R -> R) (x a b : R), is_derive f x a -> a = b -> is_derive f x b. Proof. intros f x a b H <-. exact H. Qed.

Section Rows.
Variable o : options.
Variable P : par.
Variable sm : vec -> R * R * R.
Variables (sr : mat -> R) (ea : EqModel.mat -> vec -> vec) (src : vec -> vec).
Hypothesis PL : plain o P.
Hypothesis TH : THERMAL o = false.
Variables Q q : vec.
Hypothesis OK : eos_ok (prm P) (Q 0%nat).
Hypothesis HG : Gamma_MG (prm P) (Q 0%nat) <> 0.
Hypothesis HB : b02 (prm P) <> 0.
Variable d : nat.
Hypothesis Hd : (d < 3)%nat.
Lemma VI : VISCOUS o = true. Proof. apply PL. Qed.
Lemma HM : PMULTI P = false. Proof. apply PL. Qed.
Lemma HR : (-1 < REACTION P)%Z -> MULTI o = true. Proof. apply PL. Qed.
Notation ph := (gpr o P sm sr ea src).
Notation r := (Q 0%nat).
Notation p := (pressure o P sm Q).
Notation S_ := (EqModel.system_matrix o ph Q d).
Notation act i := (rsum (V o) (fun j => S_ i j * q j)).
Definition vv (i : nat) : R := Q (2 + i)%nat / r.
(** the increments of velocity, pressure and stress *)
Definition uu (i : nat) : R := (q (2 + i)%nat - vv i * q 0%nat) / r.
Definition de_ : R :=
  (q 1%nat - Q 1%nat / r * q 0%nat) / r - dot3 vv uu
  - (dC_0drho (prm P) r / 4 * devGsq (get_A Q) * q 0%nat + frob3 (dEdA P Q) (get_A q))
  - (if Z.ltb (-1) (REACTION P) then Qc P * ((q (mV o) - Q (mV o) / r * q 0%nat) / r) else 0).
Definition pp : R := 1 / dedp (prm P) r * (de_ - dedrho (prm P) r p * q 0%nat).
Definition ss_ (i : nat) : R := dsigmadrho P Q d i * q 0%nat +
  sum3 (fun m => sum3 (fun n => dsigmadA r (c_s2 (prm P) r) (get_A Q) (gram (get_A Q)) (AdevG (get_A Q)) d i m n * get_A q m n)).

Let F (k : nat) (t : R) : R := Q k + t * q k.
Lemma F0 : at_time F 0 = Q. Proof. apply functional_extensionality. intro k. unfold at_time, F. ring. Qed.
Lemma Fk0 k : F k 0 = Q k. Proof. unfold F. ring. Qed.
Lemma FV : has_velocity F 0 q.
Proof. intro k. unfold F. assert (D : is_derive (fun t : R => Q k + t * q k) 0 (q k)); [|exact D]. auto_derive; [exact I|ring]. Qed.
Lemma r_pos : 0 < r. Proof. apply OK. Qed.
Lemma dp_ : is_derive (fun t : R => pressure o P sm (at_time F t)) 0 pp.
Proof.
  assert (OK' : eos_ok (prm P) (at_time F 0 0%nat)) by (rewrite F0; exact OK).
  assert (HG' : Gamma_MG (prm P) (at_time F 0 0%nat) <> 0) by (rewrite F0; exact HG).
  assert (D := pressure_curve F q 0 FV o P sm OK' HG' HM). unfold de_curve in D. rewrite F0 in D. rewrite VI, TH in D.
  cbv zeta in D. refine (deq _ _ _ _ D _). unfold pp, de_, dot3, sum3, vv, uu, vv, get_rhov. unfold Rminus. ring.
Qed.
Lemma ds_ i : (i < 3)%nat -> is_derive (fun t : R => sigma_col P (at_time F t) d i) 0 (ss_ i).
Proof.
  intros Hi. assert (OK' : eos_ok (prm P) (F 0%nat 0)) by (rewrite Fk0; exact OK).
  assert (D := stress_derivatives F q 0 P i d FV OK' HB Hi Hd). cbv zeta in D. rewrite F0 in D. exact D.
Qed.
Lemma dv_ i : is_derive (fun t : R => EqSpec.velocity (at_time F t) i) 0 (uu i).
Proof.
  unfold EqSpec.velocity, at_time, F, uu, vv. generalize (2 + i)%nat; intro k. assert (R0 := r_pos).
  assert (D : is_derive (fun t : R => (Q k + t * q k) / (r + t * q 0%nat)) 0 ((q k - Q k / r * q 0%nat) / r)); [|exact D].
  auto_derive; [rewrite Rmult_0_l, Rplus_0_r; lra|]. rewrite !Rmult_0_l, !Rplus_0_r. field. lra.
Qed.
Lemma dF_ k : is_derive (fun t : R => at_time F t k) 0 (q k). Proof. exact (FV k). Qed.
Lemma v0_ i : EqSpec.velocity (at_time F 0) i = vv i. Proof. rewrite F0. reflexivity. Qed.

Lemma near : locally 0 (fun t : R => F 0%nat t <> 0).
Proof.
  assert (C : continuous (fun t : R => F 0%nat t) 0) by (refine (ex_derive_continuous (K := R_AbsRing) (V := R_NormedModule) (fun t : R => F 0%nat t) 0 _); eexists; exact (FV 0%nat)).
  assert (R0 := r_pos). assert (B : locally (F 0%nat 0) (fun y : R => y <> 0)).
  { rewrite Fk0. exists (mkposreal r R0). intros y By. unfold ball in By. cbn in By. unfold AbsRing_ball, abs, minus, plus, opp in By. cbn in By.
    intro E. subst y. rewrite Rplus_0_l, Rabs_Ropp, Rabs_right in By by lra. lra. }
  exact (C _ B).
Qed.
Lemma act_row i f : (i < V o)%nat -> is_derive (fun t : R => EqSpec.physical_flux o ph (at_time F t) d i) 0 f ->
  act i = f + FvSpec.noncons o Q q d i.
Proof.
  intros Hi D. assert (OK' : eos_ok (prm P) (F 0%nat 0)) by (rewrite Fk0; exact OK).
  assert (HG' : Gamma_MG (prm P) (F 0%nat 0) <> 0) by (rewrite Fk0; exact HG).
  assert (HT : THERMAL o = true -> Tref (prm P) = 0 /\ cv (prm P) <> 0) by (rewrite TH; discriminate).
  destruct (jacobians_partial o P sm sr ea src F q 0 d PL FV OK' HG' HB HT Hd) as (_ & _ & B & EB & J). specialize (J i Hi).
  cbv zeta in J, EB. rewrite F0 in J, EB. destruct (FvProps.bdot_is_block_partial o Q q d VI Hd) as (B' & EB' & HB').
  rewrite EB in EB'. injection EB' as <-. rewrite (proj2 (HB' i Hi)) in J.
  assert (D' : is_derive (fun t : R => EqModel.flux o ph (fun _ => 0) (at_time F t) d i) 0 f).
  { eapply is_derive_ext_loc; [|exact D]. apply (filter_imp (fun t : R => F 0%nat t <> 0)); [|exact near].
    intros t Ht. symmetry. exact (RiemannProof2.flux0 o P sm VI sr ea src (at_time F t) d i Hd Ht). }
  apply is_derive_unique in D'. apply is_derive_unique in J. assert (E := eq_trans (eq_sym D') J). clear - E. lra.
Qed.

Lemma V_ge : (14 <= V o)%nat. Proof. unfold V. rewrite VI. cbn [b2n]. lia. Qed.
Lemma nc_small i : (i < 5)%nat -> FvSpec.noncons o Q q d i = 0.
Proof.
  intros Hi. unfold FvSpec.noncons. replace (Nat.leb 5 i) with false by (symmetry; apply Nat.leb_gt; lia). cbn [andb].
  replace (Nat.leb (V o - LSET o) i) with false; [reflexivity|]. symmetry. apply Nat.leb_gt. unfold V. rewrite VI. cbn [b2n]. lia.
Qed.
Lemma row_0 : act 0%nat = q (2 + d)%nat.
Proof.
  rewrite (act_row 0%nat (q (2 + d)%nat)); [rewrite nc_small by lia; ring|assert (X := V_ge); lia|].
  unfold EqSpec.physical_flux. cbn [Nat.eqb]. assert (X := dmul _ _ _ _ _ (dF_ 0%nat) (dv_ d)). refine (deq _ _ _ _ X _).
  rewrite v0_, F0. unfold uu. assert (R0 := r_pos). field. lra.
Qed.
Lemma row_v i : (i < 3)%nat -> act (2 + i)%nat =
  vv i * vv d * q 0%nat + r * uu i * vv d + r * vv i * uu d + pp * delta i d - ss_ i.
Proof.
  intros Hi. erewrite act_row; [rewrite nc_small by lia; apply Rplus_0_r|assert (X := V_ge); lia|].
  assert (E : forall t, EqSpec.physical_flux o ph (at_time F t) d (2 + i)%nat =
    at_time F t 0%nat * EqSpec.velocity (at_time F t) i * EqSpec.velocity (at_time F t) d + pressure o P sm (at_time F t) * delta i d - sigma_col P (at_time F t) d i).
  { intro t. unfold EqSpec.physical_flux. idx3 i; reflexivity. }
  eapply is_derive_ext; [intro t; symmetry; apply E|].
  assert (X := dminus _ _ _ _ _ (dplus _ _ _ _ _ (dmul _ _ _ _ _ (dmul _ _ _ _ _ (dF_ 0%nat) (dv_ i)) (dv_ d)) (dscal _ (delta i d) _ _ dp_)) (ds_ i Hi)).
  refine (deq _ _ _ _ X _). rewrite !v0_, F0. ring.
Qed.
Lemma row_1 : act 1%nat = uu d * (Q 1%nat + p) + vv d * (q 1%nat + pp)
  - (sum3 (fun k => ss_ k * vv k) + dot3 (sigma_col P Q d) uu).
Proof.
  erewrite act_row; [rewrite nc_small by lia; apply Rplus_0_r|assert (X := V_ge); lia|].
  unfold EqSpec.physical_flux. cbn [Nat.eqb]. unfold EqSpec.heat_flux. rewrite TH. unfold dot3, sum3.
  assert (X := dplus _ _ _ _ _ (dminus _ _ _ _ _ (dmul _ _ _ _ _ (dv_ d) (dplus _ _ _ _ _ (dF_ 1%nat) dp_))
    (dplus _ _ _ _ _ (dplus _ _ _ _ _ (dmul _ _ _ _ _ (ds_ 0%nat ltac:(lia)) (dv_ 0%nat)) (dmul _ _ _ _ _ (ds_ 1%nat ltac:(lia)) (dv_ 1%nat))) (dmul _ _ _ _ _ (ds_ 2%nat ltac:(lia)) (dv_ 2%nat))))
    (is_derive_const (V := R_NormedModule) 0 0)).
  refine (deq _ _ _ _ X _). rewrite !v0_, F0. change (zero (G := R_NormedModule)) with 0. ring.
Qed.
Lemma row_A m n : (m < 3)%nat -> (n < 3)%nat -> act (5 + 3 * m + n)%nat =
  vv d * q (5 + 3 * m + n)%nat + delta n d * mvec (get_A Q) uu m.
Proof.
  intros Hm Hn. erewrite act_row; [|assert (X := V_ge); lia|].
  2:{ assert (E : forall t, EqSpec.physical_flux o ph (at_time F t) d (5 + 3 * m + n)%nat =
        (at_time F t (5 + 3 * m + 0)%nat * EqSpec.velocity (at_time F t) 0%nat + at_time F t (5 + 3 * m + 1)%nat * EqSpec.velocity (at_time F t) 1%nat
         + at_time F t (5 + 3 * m + 2)%nat * EqSpec.velocity (at_time F t) 2%nat) * delta n d).
      { intro t. unfold EqSpec.physical_flux, mvec, EqSpec.Amat, sum3. idx3 m; idx3 n; reflexivity. }
      eapply is_derive_ext; [intro t; symmetry; apply E|].
      exact (dscal _ (delta n d) _ _ (dplus _ _ _ _ _ (dplus _ _ _ _ _ (dmul _ _ _ _ _ (dF_ (5 + 3 * m + 0)%nat) (dv_ 0%nat)) (dmul _ _ _ _ _ (dF_ (5 + 3 * m + 1)%nat) (dv_ 1%nat))) (dmul _ _ _ _ _ (dF_ (5 + 3 * m + 2)%nat) (dv_ 2%nat)))). }
  cbv beta. rewrite !v0_, F0. unfold FvSpec.noncons.
  change (EqSpec.velocity Q) with vv. cbv zeta. unfold mvec, get_A, sum3.
  idx3 m; idx3 n; cbn [Nat.leb Nat.ltb Nat.add Nat.mul andb Nat.sub]; cbn [Nat.div Nat.modulo Nat.divmod fst snd Nat.sub Nat.add Nat.mul]; ring.
Qed.
Lemma row_ls k : (V o - LSET o <= k < V o)%nat -> act k = vv d * q k.
Proof.
  intros Hk. assert (K : (14 <= k)%nat) by (unfold V in Hk; rewrite VI in Hk; cbn [b2n] in Hk; lia).
  rewrite (act_row k 0); [|lia|].
  - unfold FvSpec.noncons. replace (Nat.ltb k 14) with false by (symmetry; apply Nat.ltb_ge; lia). rewrite Bool.andb_false_r.
    replace (Nat.leb (V o - LSET o) k) with true by (symmetry; apply Nat.leb_le; lia). replace (Nat.ltb k (V o)) with true by (symmetry; apply Nat.ltb_lt; lia).
    cbn [andb]. change (EqSpec.velocity Q d) with (vv d). ring.
  - eapply is_derive_ext; [|exact (is_derive_const (V := R_NormedModule) 0 0)]. intro t. unfold EqSpec.physical_flux. rewrite TH.
    replace (Nat.eqb k 0) with false by (symmetry; apply Nat.eqb_neq; lia). replace (Nat.eqb k 1) with false by (symmetry; apply Nat.eqb_neq; lia).
    replace (Nat.ltb k 5) with false by (symmetry; apply Nat.ltb_ge; lia). replace (Nat.ltb k 14) with false by (symmetry; apply Nat.ltb_ge; lia).
    cbn [andb]. destruct (MULTI o) eqn:MU; [|reflexivity].
    replace (Nat.eqb k (mV o)) with false; [reflexivity|]. symmetry. apply Nat.eqb_neq. unfold V, mV in *. rewrite MU in Hk. cbn [b2n] in Hk. lia.
Qed.
Lemma row_mV : MULTI o = true -> act (mV o) = q (mV o) * vv d + Q (mV o) * uu d.
Proof.
  intros MU. assert (E : mV o = 14%nat) by (unfold mV; rewrite VI, TH; reflexivity). rewrite E.
  assert (V1 : V o = (15 + LSET o)%nat) by (unfold V; rewrite VI, TH, MU; cbn [b2n]; lia).
  erewrite act_row; [|lia|].
  2:{ eapply is_derive_ext; [|exact (dmul _ _ _ _ _ (dF_ 14%nat) (dv_ d))]. intro t. unfold EqSpec.physical_flux. rewrite TH, MU, E. reflexivity. }
  cbv beta. rewrite v0_, F0. unfold FvSpec.noncons. cbn [Nat.ltb Nat.leb andb].
  replace (Nat.leb (V o - LSET o) 14) with false by (symmetry; apply Nat.leb_gt; lia). cbn [andb]. ring.
Qed.

(** ** what an eigenvector satisfies *)
Variable mu_ : R.
Hypothesis EIG : forall i, (i < V o)%nat -> act i = mu_ * q i.
Notation s := (mu_ - vv d).
Lemma q_v i : q (2 + i)%nat = vv i * q 0%nat + r * uu i.
Proof. unfold uu. assert (R0 := r_pos). field. lra. Qed.
Lemma e_0 : s * q 0%nat = r * uu d.
Proof. assert (E := EIG 0 ltac:(assert (X := V_ge); lia)). rewrite row_0, q_v in E. lra. Qed.
Lemma e_v i : (i < 3)%nat -> s * (r * uu i) = pp * delta i d - ss_ i.
Proof.
  intros Hi. assert (E := EIG (2 + i)%nat ltac:(assert (X := V_ge); lia)). rewrite row_v, q_v in E by exact Hi. assert (Z := e_0).
  assert (vv i * (s * q 0%nat) = vv i * (r * uu d)) by (rewrite Z; ring). lra.
Qed.
Lemma e_A m n : (m < 3)%nat -> (n < 3)%nat -> s * get_A q m n = delta n d * mvec (get_A Q) uu m.
Proof. intros Hm Hn. assert (E := EIG (5 + 3 * m + n)%nat ltac:(assert (X := V_ge); lia)). rewrite row_A in E by assumption. unfold get_A at 1. lra. Qed.
Lemma e_1 : s * q 1%nat = uu d * (Q 1%nat + p) + s * r * dot3 vv uu - dot3 (sigma_col P Q d) uu.
Proof.
  assert (E := EIG 1 ltac:(assert (X := V_ge); lia)). rewrite row_1 in E.
  assert (A := e_v 0 ltac:(lia)). assert (B := e_v 1 ltac:(lia)). assert (C := e_v 2 ltac:(lia)).
  assert (X : vv d * pp - sum3 (fun k => ss_ k * vv k) = s * r * dot3 vv uu).
  { transitivity (vv 0%nat * (s * (r * uu 0%nat)) + vv 1%nat * (s * (r * uu 1%nat)) + vv 2%nat * (s * (r * uu 2%nat))).
    - rewrite A, B, C. unfold sum3. assert (Y : vv d = vv 0%nat * delta 0 d + vv 1%nat * delta 1 d + vv 2%nat * delta 2 d) by (clear - Hd; revert Hd; generalize d; intros e He; idx3 e; unfold delta; cbn; ring).
      rewrite Y. ring.
    - unfold dot3, sum3. ring. }
  lra.
Qed.
Lemma e_mV : MULTI o = true -> s * q (mV o) = Q (mV o) * uu d.
Proof.
  intros MU. assert (E := EIG (mV o) ltac:(unfold mV, V; rewrite VI, MU; cbn [b2n]; lia)). rewrite (row_mV MU) in E. lra.
Qed.
Lemma e_ls k : (V o - LSET o <= k < V o)%nat -> s * q k = 0.
Proof. intros Hk. assert (E := EIG k ltac:(lia)). rewrite row_ls in E by exact Hk. lra. Qed.
Lemma e_de : s * de_ = uu d * p / r - dot3 (sigma_col P Q d) uu / r - dC_0drho (prm P) r / 4 * devGsq (get_A Q) * (r * uu d)
  - sum3 (fun m => dEdA P Q m d * mvec (get_A Q) uu m).
Proof.
  assert (R0 := r_pos). unfold de_.
  assert (RC : s * (if Z.ltb (-1) (REACTION P) then Qc P * ((q (mV o) - Q (mV o) / r * q 0%nat) / r) else 0) = 0).
  { destruct (Z.ltb (-1) (REACTION P)) eqn:RE; [|ring]. apply Z.ltb_lt in RE. assert (E := e_mV (HR RE)).
    transitivity (Qc P / r * (s * q (mV o) - Q (mV o) / r * (s * q 0%nat))); [field; lra|]. rewrite E, e_0. field. lra. }
  assert (AA : s * frob3 (dEdA P Q) (get_A q) = sum3 (fun m => dEdA P Q m d * mvec (get_A Q) uu m)).
  { transitivity (sum3 (fun m => sum3 (fun n => dEdA P Q m n * (s * get_A q m n)))); [unfold frob3, sum3; ring|].
    unfold sum3. rewrite !e_A by lia. clear - Hd. revert Hd. generalize d. intros e He. idx3 e; unfold delta; cbn [Nat.eqb]; ring. }
  match goal with |- s * (?a - ?b - (?c + ?e) - ?f) = _ => transitivity (s * a - s * b - s * c - s * e - s * f); [ring|] end.
  rewrite RC, AA.
  transitivity ((s * q 1%nat - Q 1%nat / r * (s * q 0%nat)) / r - s * dot3 vv uu - dC_0drho (prm P) r / 4 * devGsq (get_A Q) * (s * q 0%nat)
    - sum3 (fun m => dEdA P Q m d * mvec (get_A Q) uu m) - 0); [field; lra|].
  rewrite e_1, e_0. field. lra.
Qed.
Hypothesis HC : 0 <= (p / (r * r) - dEdrho o P sm Q) / dEdp o P sm Q.
Lemma e_p : s * pp = r * c_0 o P sm Q * c_0 o P sm Q * uu d + sum3 (fun k => (sigma_col P Q d k - r * dsigmadrho P Q d k) * uu k).
Proof.
  assert (R0 := r_pos).
  transitivity (1 / dedp (prm P) r * (s * de_ - dedrho (prm P) r p * (s * q 0%nat))); [unfold pp; ring|]. rewrite e_de, e_0.
  unfold c_0. set (X := _ / dEdp o P sm Q) in *.
  replace (r * sqrt X * sqrt X) with (r * X) by (rewrite Rmult_assoc, sqrt_sqrt by exact HC; reflexivity).
  unfold X, dEdrho, dEdp. rewrite HM.
  assert (SG : forall k, (k < 3)%nat -> sigma_col P Q d k = - r * c_s2 (prm P) r * shape (get_A Q) d k).
  { intros k Hk. rewrite sigma_col_shape. rewrite shape_sym by assumption. reflexivity. }
  assert (AU : sum3 (fun m => dEdA P Q m d * mvec (get_A Q) uu m) = C_0 (prm P) r * sum3 (fun k => shape (get_A Q) d k * uu k))
    by (unfold dEdA, mscal, mvec, shape, sum3; ring).
  rewrite AU. unfold dsigmadrho, dot3, sum3. rewrite !SG by lia. unfold dedp, C_0, dc_s2drho.
  set (a0 := shape (get_A Q) d 0). set (a1 := shape (get_A Q) d 1). set (a2 := shape (get_A Q) d 2).
  assert (CS : c_s2 (prm P) r <> 0) by (unfold c_s2; apply Rmult_integral_contrapositive; split; [exact HB|]; apply Rgt_not_eq, exp_pos).
  assert (HG' := HG). field. repeat split; try assumption; lra.
Qed.

(** ** the 3x3 eigenvalue problem, for the direction 0 *)
Lemma u_nonzero : s <> 0 -> (exists k, (k < V o)%nat /\ q k <> 0) -> exists i, (i < 3)%nat /\ uu i <> 0.
Proof.
  intros HS (k & Hk & Nk).
  destruct (Req_EM_T (uu 0%nat) 0) as [U0|]; [|exists 0%nat; split; [lia|assumption]].
  destruct (Req_EM_T (uu 1%nat) 0) as [U1|]; [|exists 1%nat; split; [lia|assumption]].
  destruct (Req_EM_T (uu 2%nat) 0) as [U2|]; [|exists 2%nat; split; [lia|assumption]].
  exfalso. apply Nk. assert (UZ : forall i, (i < 3)%nat -> uu i = 0) by (intros i Hi; idx3 i; assumption).
  assert (SZ : forall x, s * x = 0 -> x = 0) by (intros x X; apply Rmult_integral in X; tauto).
  assert (Q0 : q 0%nat = 0) by (apply SZ; rewrite e_0, (UZ d Hd); ring).
  assert (K : k = 0%nat \/ k = 1%nat \/ (exists i, (i < 3)%nat /\ k = (2 + i)%nat) \/ (exists m n, (m < 3)%nat /\ (n < 3)%nat /\ k = (5 + 3 * m + n)%nat) \/ (14 <= k)%nat).
  { destruct k as [|[|k]]; [tauto|tauto|]. do 2 right. destruct (le_lt_dec 3 k) as [G|L]; [|left; exists k; split; [exact L|lia]]. right.
    destruct (le_lt_dec 12 k); [right; lia|]. left. exists ((k - 3) / 3)%nat, ((k - 3) mod 3)%nat.
    assert (E := Nat.div_mod (k - 3) 3 ltac:(lia)). assert (M := Nat.mod_upper_bound (k - 3) 3 ltac:(lia)). 
    split; [apply Nat.div_lt_upper_bound; lia|]. split; [exact M|lia]. }
  destruct K as [->|[->|[(i & Hi & ->)|[(m & n & Hm & Hn & ->)|K]]]].
  - exact Q0.
  - apply SZ. rewrite e_1. unfold dot3, sum3. rewrite (UZ d Hd), U0, U1, U2. ring.
  - rewrite q_v, Q0, (UZ i Hi). ring.
  - apply SZ. assert (E := e_A m n Hm Hn). unfold get_A in E at 1. rewrite E. unfold mvec, sum3. rewrite U0, U1, U2. ring.
  - destruct (le_lt_dec (V o - LSET o) k) as [G|L]; [apply SZ, e_ls; lia|].
    assert (V1 : V o = (14 + b2n (MULTI o) + LSET o)%nat) by (unfold V; rewrite VI, TH; cbn [b2n]; lia).
    destruct (MULTI o) eqn:MU; cbn [b2n] in V1; [|lia]. assert (M : mV o = 14%nat) by (unfold mV; rewrite VI, TH; reflexivity).
    assert (k = mV o) by lia. subst k. apply SZ. rewrite e_mV by exact MU. rewrite (UZ d Hd). ring.
Qed.
Lemma acoustic i : d = 0%nat -> (i < 3)%nat ->
  sum3 (fun j => thermo_acoustic_tensor o P sm Q d i j * uu j) = s * s * uu i.
Proof.
  intros D0 Hi. assert (R0 := r_pos).
  assert (X2 : forall k, (k < 5)%nat -> sum3 (fun j => Xi2 o P sm r p Q d k j * uu j) = s * (match k with O => q 0%nat | 1%nat => pp | _ => get_A q (k - 2)%nat d end)).
  { intros k Hk. unfold Xi2, addblock, setblock. rewrite VI, TH.
    destruct k as [|[|[|[|[|k]]]]]; [| | | | |lia].
    - rewrite e_0. subst d. unfold sum3. cbn. ring.
    - rewrite e_p. subst d. unfold sum3. cbn. ring.
    - rewrite e_A by lia. subst d. unfold mvec, sum3, delta. cbn. ring.
    - rewrite e_A by lia. subst d. unfold mvec, sum3, delta. cbn. ring.
    - rewrite e_A by lia. subst d. unfold mvec, sum3, delta. cbn. ring. }
  transitivity (rsum 5 (fun k => Xi1 o P r p Q d i k * sum3 (fun j => Xi2 o P sm r p Q d k j * uu j))).
  { unfold thermo_acoustic_tensor. cbv zeta. cbn [rsum]. unfold sum3. ring. }
  cbn [rsum]. rewrite !X2 by lia. cbn [Nat.sub].
  transitivity (s * ((pp * delta i d - ss_ i) / r)).
  2:{ rewrite <- e_v by exact Hi. field. lra. }
  assert (AZ : forall m n, (m < 3)%nat -> (n < 3)%nat -> n <> d -> s = 0 \/ get_A q m n = 0).
  { intros m n Hm Hn N. assert (E := e_A m n Hm Hn). unfold delta in E. rewrite (proj2 (Nat.eqb_neq n d) N), Rmult_0_l in E. apply Rmult_integral, E. }
  destruct (Req_EM_T s 0) as [S0|S1]; [rewrite S0; ring|].
  assert (AZ' : forall m n, (m < 3)%nat -> (n < 3)%nat -> n <> d -> get_A q m n = 0) by (intros m n Hm Hn N; destruct (AZ m n Hm Hn N); [contradiction|assumption]).
  unfold ss_, sum3. rewrite (AZ' 0%nat 1%nat), (AZ' 1%nat 1%nat), (AZ' 2%nat 1%nat), (AZ' 0%nat 2%nat), (AZ' 1%nat 2%nat), (AZ' 2%nat 2%nat) by (subst d; lia).
  unfold Xi1, setblock. rewrite VI, TH. 
  assert (SC := fun m Hm => stress_derivative_column P Q d i m Hi Hd Hm). cbv zeta in SC. rewrite D0 in *.
  rewrite <- !SC by lia. idx3 i; unfold delta; cbn; field; lra.
Qed.
End Rows.
